(** How a reader sees a space separated text table (CBenchmark.make_plots reads the result file with
    sep=" ", skipinitialspace and the default skipping of blank lines). Independent of the model. *)
From Coq Require Import List Bool NArith QArith Ascii String.
Import ListNotations.
From Verif Require Import Prelude.Py.
Open Scope string_scope.

(** Cutting a text at every separator character. *)
Fixpoint split (sep : ascii -> bool) (s : string) : list string :=
  match s with
  | "" => [""]
  | String c t =>
      if sep c then "" :: split sep t
      else match split sep t with
           | [] => [String c ""]
           | h :: r => String c h :: r
           end
  end.

(** The non-empty pieces. *)
Definition tokens (sep : ascii -> bool) (s : string) : list string :=
  filter (fun t => negb (String.eqb t "")) (split sep s).

Definition is_space (c : ascii) : bool := Ascii.eqb c " ".
Definition is_newline (c : ascii) : bool := Ascii.eqb c "010".

(** A table: the fields of each line. *)
Definition table (text : string) : list (list string) := map (tokens is_space) (tokens is_newline text).

(** No character of s satisfies sep. *)
Fixpoint free (sep : ascii -> bool) (s : string) : bool :=
  match s with "" => true | String c t => negb (sep c) && free sep t end.

(** A name that is one field of a line. *)
Definition word (s : string) : Prop := s <> "" /\ free is_space s = true /\ free is_newline s = true.

(** Reading numbers: decimal digits, then fixed point numbers with an optional minus sign. *)
Definition read_digit (c : ascii) : option N :=
  let n := N_of_ascii c in
  if ((48 <=? n) && (n <=? 57))%N then Some (n - 48)%N else None.

Fixpoint read_from (s : string) (acc : N) : option N :=
  match s with
  | "" => Some acc
  | String c t => match read_digit c with Some d => read_from t (10 * acc + d)%N | None => None end
  end.

(** A natural number: at least one digit. *)
Definition read_nat (s : string) : option N :=
  match s with "" => None | _ => read_from s 0 end.

Definition is_point (c : ascii) : bool := Ascii.eqb c ".".

(** "ddd.ddd" *)
Definition read_abs (s : string) : option Q :=
  match split is_point s with
  | [i; f] =>
      match read_nat i, read_nat f with
      | Some a, Some b =>
          Some (inject_Z (Z.of_N a) + inject_Z (Z.of_N b) / inject_Z (Z.of_N (10 ^ N.of_nat (String.length f))))%Q
      | _, _ => None
      end
  | _ => None
  end.

Definition read_fixed (s : string) : option Q :=
  match s with
  | String "-" t => match read_abs t with Some q => Some (- q)%Q | None => None end
  | _ => read_abs s
  end.

(** A field that shows the number v to p decimal places. *)
Definition shows (p : nat) (s : string) (v : Q) : Prop :=
  exists q, read_fixed s = Some q /\
    (- (1 # 2) / inject_Z (Z.of_N (10 ^ N.of_nat p)) <= q - v <= (1 # 2) / inject_Z (Z.of_N (10 ^ N.of_nat p)))%Q.

(** The same for special values. *)
Definition shown (p : nat) (s : string) (v : fl Q) : Prop :=
  match v with
  | Fin q => shows p s q
  | PInf => s = "inf"
  | NInf => s = "-inf"
  | NaN => s = "nan"
  end.
