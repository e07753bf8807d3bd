# Formal model of ais-benchmarks: design

`/repo` (IntelLabs/ais-benchmarks) is read as text; nothing there is built, run or changed.
The model lives in `rocq/theories` (logical prefix `Verif`).

## 1. Layout

| files | content |
|---|---|
| `Prelude/*.v` | numbers (rational and real helpers, IEEE special values), Python-style results, list/box lemmas. Not a model of repo code. |
| `Model/*.v` | the model, one file per source file (or small group); definitions only, every definition cites the `/repo` lines it mirrors. No proofs. |
| `Spec/*.v` | small, independent specifications (what a box, a partition, a proportional vector, a prefix ... is). They do not use the model. |
| `Proofs/*.v` | lemmas. |
| `Properties/*.v` | only property theorems `Cnn_...`, each closed by `exact`, each followed by `Print Assumptions`, and the `Example`s that show non-vacuity. |

## 2. Modelling decisions

* **Numbers.** Algorithms that only use `+ - * /` and comparisons are modelled over Coq's rationals `Q`
  (every finite binary64 number is a rational), so the model is executable and witnesses are computed with
  `vm_compute`. Code that calls `exp`, `log`, `sqrt` or real powers is modelled over Coq's `R`.
  Rounding, overflow and underflow are **not** modelled: arithmetic is exact. Where the code's control flow depends on
  IEEE special values (NaN, +inf, -inf) these are explicit constructors (`fl A := Fin a | PInf | NInf | NaN`).
  The sign of zero is not modelled.
* **Exceptions are values**: `res A := Ok a | Raise e`, `e` naming the Python exception class.
* **Randomness, clock, target density, k-means, linear algebra** are arguments (oracles): functions, or tapes holding one
  entry per loop iteration. Theorems quantify over all of them. What a numpy generator guarantees
  (e.g. `uniform(a,b)` is in `[a,b)`) is an explicit, named hypothesis of the theorem that needs it.
* **`while` loops** consume a tape (one entry per iteration: draws and the clock reading). They end in `Done`, or in
  `Running` if the tape is exhausted while the loop condition still holds. So theorems speak about every finite execution prefix,
  and termination claims are stated as "for every sufficiently long tape the result is `Done`".
* **Aliasing** (numpy views) is modelled where it changes results (nested samplers keep a *view* of a live point).
* **Threads**: the stream reader is a transition system; a schedule is an arbitrary list of producer/consumer micro-steps.
* **Not modelled**: parts of drawing (colours, markers, three-dimensional pictures, `visualization/manim`; the data of the benchmark curves, C85, of density plots, C114, and of the pictures of the samplers, C115, is modelled, and so is `visualization/matplotlib`, C100, C101), YAML parsing, file system,
  console output, video writer, `apis.py` (its constructor cannot complete), the contents of pandas/matplotlib calls,
  the distribution of the pseudo random numbers (except in C04, C33, C86, C87, C88, C92, C94, C95, C96 and C97, where the law of the draws is stated in
  the theorem).

## 3. Trusted base

* Coq 8.16.1 kernel (and `vm_compute`).
* Axioms: theorems over `Q`, `nat`, `Z`, `string`: none. Theorems over `R`: the axioms of the standard library's
  classical Dedekind reals (`ClassicalDedekindReals.sig_forall_dec`, `ClassicalDedekindReals.sig_not_dec`,
  `FunctionalExtensionality.functional_extensionality_dep`), and, where Coquelicot lemmas are used,
  standard-library classical logic (`Classical_Prop.classic` and friends from `Coq.Logic`). The exact list per theorem is in section 5.
* The reading of `/repo`: the comments on the model definitions cite the lines.

## 4. What is modelled per property and how it is proved

"refute" means: the faithful model violates the English property; a theorem named `..._refuted` exhibits a witness and a
`..._partial` theorem keeps what does hold.

| id | modelled | how proved |
|---|---|---|
| C01 | `set_weights` over `list (fl R)` | induction on the list; sums split into positive and dropped entries |
| C02 | same | refute: all entries invalid gives all zero, density 0 |
| C03 | mixture `prob`/`log_prob` (logsumexp with weights) | sums of `w_i*exp l_i`; bounds by induction |
| C04 | `sample` with selector tape | induction on n |
| C05 | uniform box constructor, prob, log_prob | product lemmas |
| C06 | uniform `integral` | refute (disjoint query box: negative or spurious positive); proved when the boxes overlap in each dimension |
| C07 | uniform sample/prob | refute at the closed lower face, proved for draws strictly above it |
| C08 | normal with inverse/determinant given by oracle; set_moments histories | quadratic-form algebra |
| C09 | exponential constructor, log_prob, prob | refute (mean <> 1; x<=0; batches without positive rows raise); partial: mean 1, x>0 |
| C10 | Maxwell, Laplace, Pareto | antiderivatives (Coquelicot), limits; Maxwell log density refuted at x<=0 |
| C11 | BenchDenUniform | refute |
| C12 | kernels | case analysis and integrals; normal kernel by the Gaussian integral and rational bounds on pi (Machin series of the standard library) |
| C13 | `_check_shape` on shaped arrays | case analysis on shapes; empty batch refuted |
| C14 | base `integral` | sums of indicator values |
| C15 | base prob/log_prob | case analysis |
| C16 | ABC: construction, `condition`, `prob`, `log_prob` | state machine: answers exactly when conditioned; surrogate values over R |
| C17-C20 | divergences over `list (fl R)` | Gibbs inequality (ln x <= x-1), equality case; refute on empty common support |
| C21 | statistics over Q | algebra |
| C22 | approx NESS over Q | Cauchy-Schwarz by induction with equality case |
| C23, C24 | metric state machines | induction over call histories; memory refuted |
| C25-C28 | rejection loop | loop invariants over tapes; refutations by computation |
| C29-C33 | MH step/mcmc/sample/importance_sample | loop invariants; detailed-balance algebra over R; finite-state refutation |
| C34-C38 | nested and multi-nested loops with view aliasing | invariants on live set; weight algebra over R; clustering by measure |
| C39-C42 | DM-AIS, layered AIS loops | invariants over tapes |
| C43, C44 | M-PMC adapt/iteration over R | sums; refutations |
| C45-C51 | tree pyramid over Q | invariant of `expand` over histories; geometry by induction on dimension and history |
| C52-C55 | HiDaisee over Q (sampling value `q` oracle-free structure) | invariant of `split`; refutations by computation |
| C56-C59 | benchmark loop, header/row strings; C59 also with one object of every sampler but APIS | induction over iterations; string tokeniser; resets that forget the state |
| C60-C62 | utilities over Q/Z | floor arithmetic, cartesian products |
| C63 | transition system | invariant over all schedules; refute stale read-last |
| C64 | reset of each sampler as its assignments on the old object | nothing observable of the history is left, later histories are those of a new object; MH refuted |
| C65 | `_update_model` | tape of indices |
| C66 | MH `importance_sample` over histories | loop invariants over tapes |
| C67 | autocorrelation ESS over Q | loop invariant against an index-based definition of autocorrelations and of the last lag; affine invariance by algebra; refutations by computation |
| C68 | entropy ESS of the nested samplers over R | `ln` bounds; a zero weight refutes |
| C69 | evaluation counters of nested sampling | loop invariant over histories |
| C70 | layered AIS loop with its inner walks | invariants over tapes |
| C71 | M-PMC loop over histories | counting invariants |
| C72-C75 | tree sampler calls (simple, dm, mixture), histories of calls | measure on turns; order of expansion; weights up to a common factor; dm/mixture refuted |
| C76, C77 | HiDaisee model update, counters | sums over leaf boxes, induction over histories; all-zero weights refute |
| C78 | Gaussian mixture target: constructor, `prob`, `log_prob` | determinant/inverse of diagonal matrices, Gaussian integral, iterated integrals; negative variances refute |
| C79 | point mass: `prob`, `log_prob`, `sample`, `integral` | `isclose` as a rational inequality; tolerance and NameError refute |
| C80 | banana target: shapes, `prob`, `log_prob` | factorisation into Gaussians, iterated integral |
| C81 | noisy function: `condition`, `set_params`, `sample`, densities with numpy broadcasting | histories by `fold_left`; a doubling function and a width-reducing function refute |
| C82 | `wait_for_ready` over a tape of clock readings | first-event characterisation by induction |
| C83 | `load_benchmark`, `load_methods`, double loop of `run`; missing keys, failing constructors | alignment invariant over all histories, all pairs in order |
| C84 | bounds printed with `array2string` and evaluated again (relation, ties left open) | rational arithmetic; a dyadic bound refutes |
| C85 | result table as rows with missing values, grouping, ten-point rolling window, band | induction over tables; windows of group means; square roots over R |
| C86 | the HiDaisee descent, values and splits of C52-C55; random numbers as sequences, positive probability as intervals of positive length | invariant: all values below the root positive, every leaf reachable from the root; steering by induction on the path; refutation by an invariant (a left child with value NaN is never entered) over all later histories |
| C87 | the loop of C26-C27 as a function of the streams of proposals and uniform draws; probability as exact weighted sums over proposals on finitely many cells and a Bernoulli event of the acceptance probability per proposal | the samples are the first accepted ones of the stream (induction over rounds); joint law of the accepted points by induction on the number of proposals |
| C88 | the loop of C39-C42 with the probability law of its draws: independent draws of every proposal in force, on finitely many cells; adaptation randomness arbitrary | linearity of expectation over products of finite laws; the equal mixture in the denominator cancels the sum over proposals; induction on the turns of a call; refutation by a computed expectation |
| C89 | HiDaisee of C53 and C76; the bounds of the target on the boxes are given as numbers per box | the rows of a box carry target times volume (invariant of C53), so that its mean weight is between the bounds times the volume; the density is that mean over the sum of means (C76); refutation by a run whose split leaves a box empty |
| C90 | as C89; the mean of all returned weights | sums of means per box between the Riemann sums; the mean over everything is below the sum of the means of the parts as soon as two parts count; refutation by a run |
| C91 | Model/MPMC.v `mp_iter`, `mp_rho`, `mp_mix` (m_pmc.py:53-118) and Model/Normal.v `normal_new`, `set_moments`; criterion `loglik`/`weighted_R` in Spec/EmSpec.v | Proofs/EmStep.v proves the expectation-maximisation inequality over R (Jensen for the logarithm on the responsibilities, Gibbs inequality for the mixture weights); Proofs/MPMCEm.v shows that the weights and responsibilities of the model have that form; Proofs/NormalMean.v splits the weighted quadratic form at the mean. Refuted by one turn evaluated for an arbitrary positive component density (Proofs/MPMCWorse.v), with ln 2 > 1/2 |
| C92 | Model/DistBase.v `mc_integral` (distributions.py:217-226); draws as in Spec/DrawSpec.v: unit numbers 0, 1/G, ..., points from the finite set they reach | Proofs/IndepLaw.v: mean and mean square of a sum of independent draws (variance plus squared bias, by induction on the laws), variance of a bounded draw; Proofs/IntegralLaw.v: chance of a hit is p / height up to 1 / G (a downward closed test passes an initial piece of the grid), then over the points; Chebyshev; Proofs/LeftSum.v: left Riemann sum of a Lipschitz function |
| C93 | Model/Saved.v: classes, required and saved parameters, `to_dict`, the names the loader can resolve, construction from Python lists; Model/Loader.v `load_benchmark`; Model/Gmm.v | case analysis on the class; the mixture constructor gives the same object from the lists as from the arrays; refute through the unresolved type name |
| C94 | Model/Divergence.v `kl_compute`, `js_compute`; Spec/DrawMeanSpec.v (mean over n independent draws from finitely many points), Spec/IntegralSpec.v (`kl_integral`, `js_integral`) | both values are functions of averages (of p, q and p ln(p/q), or of the two entropy terms at a fixed ratio of the totals) with explicit Lipschitz constants; variance of a mean of independent draws; left sums against the integral |
| C95 | Model/Population.v, Model/PopulationLaw.v as for C88; Spec/UnbiasedSpec.v `missed` | induction on the turns with a free offset: the batch error has mean zero given the past, so squares add up; second moment of a weight at most W; for normalised weights a miss needs an error of the weight sum or of the centred sum (Chebyshev) |
| C96 | Model/MHLaw.v `steps_mean`, `sample_prob`, `attempts_move` over Model/MetropolisHastings.v `mh_sample`; Spec/ChainSpec.v | the step law of C33 turns burn-in and steps into powers of a transition matrix that may fail; balance gives its invariant law; one-step covering (Doeblin) contracts the distance by 1 - beta per step |
| C97 | Model/PopulationLaw.v `walk_prob`, `centre_prob`, `rounds_use` over Model/Population.v `mcmc_mh`, `pop_call`; Spec/WalkSpec.v | a call is a chain of turns times L steps; the step kernel balances the target by symmetry of the displacements and uniform decisions; covering within q steps contracts the distance; the refutation computes one row of the clipped kernel |
| C98 | the loops of Model/Rejection.v, Population.v, MPMC.v, TreeSampler.v, MetropolisHastings.v, Nested.v; Spec/TimeSpec.v | induction on the tape of turns; the refutations construct for every m a call that works m times past its limit |
| C99 | Model/AbcWorld.v: targets and models as objects with references, calls as operations; Spec/AbcSpec.v | invariant over call sequences: models keep class, function and latest parameters, targets keep their latest observation |
| C100 | Model/Drawing.v: canvas of artists with handles, tables of drawn items; Spec/DrawingSpec.v | invariant: the canvas is the base followed by one block of artists per drawn item, complete or what removal leaves |
| C101 | Model/AxisGeometry.v over R; Spec/AxisSpec.v | field arithmetic with the unit direction |
| C102 | Model/Ellipsoid.v over R: determinants by expansion, np.mean / np.cov / np.std; Spec/EllipsoidSpec.v: images of ellipsoids | determinants of multiples and diagonals by induction on the dimension, moments of moved points |
| C103 | Model/Nested.v (requests for one more sample); Spec/NestedLawSpec.v: chances, Spec/UnbiasedSpec.v: independent draws | recursion over the redraws: the chance of a hit satisfies a geometric recurrence |
| C104 | Model/Params.v: dictionary, heap of arrays, constructors, observers; Spec/ParamsSpec.v: behaviour of an object | case analysis on the constructors; objects with equal parts behave the same |
| C105 | Model/TreePyramid.v with Proofs/TreeGreedy.v; Spec/RefineSpec.v: Lipschitz functions, integral as the number between all lower and upper sums | balance invariant of greedy splitting over all histories; leaf volumes bound the sides; sums over leaves against Darboux sums |
| C106 | all sampler models run twice with the same tapes; Spec/ScaleSpec.v: scaled targets, proportional and equal weights | simulation relations per sampler (Proofs/ScaleSimple.v, ScalePop.v, ScaleTree.v, ScaleHd.v, ScaleR.v) carried through every history; witnesses computed for the refutations |
| C107 | all sampler models called once or twice; Spec/InstalmentSpec.v: events read in time | a generic loop (Proofs/InstalLoop.v) that stops at the first request and continues, instances per sampler (Proofs/InstalProofs.v); for the tree sampler a relation up to the cached weights, which the first turn after the normalisation restores (Proofs/InstalTree.v); witnesses computed for the refutations |
| C108 | CMixtureModel.sample/prob, the resampling of DM-AIS and sample() of the tree object with independent finite laws for their random numbers (Model/MixtureLaw.v); Spec/MixtureLawSpec.v: laws of mixtures and of weighted choices | the selector is followed component by component, the share left cancelling (Proofs/MixtureSelect.v: select_law), then independence over the iterations; equidistant laws decide all ratios of a given mixture (Proofs/MixtureDraws.v); leaves are disjoint, so a draw from a leaf is counted there only (Proofs/MixtureTree.v; HiDaisee: Model/HiDaiseeLaw.v, Spec/HdLawSpec.v, Proofs/HiDaiseeLawProofs.v) |
| C109 | the samplers as in C106 run on two problems that are the same in other coordinates; Spec/UnitsSpec.v: points, displacements, densities; Spec/UnitsOps.v: operations with the same random outcomes; Spec/UnitsTree.v: the same for the tree samplers | the state relation (points converted, densities divided by a^n) is kept by every step (Proofs/UnitsBase.v, UnitsSimple.v, UnitsNested.v, UnitsPop.v, UnitsMpmc.v, UnitsTreeBase.v, UnitsTreeTurn.v, UnitsTreeRun.v; HiDaisee: Spec/HdCoords.v, Proofs/ChartHd.v for charts that change unit, origin and order of the axes); comparisons and quotients of densities do not see the factor; witnesses for M-PMC, multi-nested and the normal kernel of the trees |
| C110 | Model/Arrays.v: memory as buffers, arrays as references or row views; per sampler what is copied, shared and overwritten (the numbers come from tapes); Spec/ArraysSpec.v: histories with assignments by the caller | samplers that never assign rows only extend memory (Proofs/ArraysKeep.v); two runs, with and without the assignments, agree on private buffers and on all shapes (ArraysTwo.v, ArraysNew.v); witnesses by computation |
| C111 | Model/Divergence.v, Statistics.v, Base.v, Mixture.v as in C01-C03, C17-C22 | float addition, maximum and log-add-exp are commutative and associative including NaN and infinities (Proofs/OrderR.v, OrderQ.v), so folds over permuted lists agree; stored mixture weights are a function of the given weight and of the sum |
| C112 | Model/Defaults.v: the proposal text of def_methods.yaml applied to a support box, scaling 1; Model/Rejection.v, Uniform.v | the box is covered iff centred (Proofs/DefaultsBox.v); every sample held was drawn, hence stays near the origin; the law of C87 applied to min(target, scaling * q) (Proofs/DefaultsLaw.v), and equality of masses of ordered functions gives the exact condition |
| C113 | the models of C109 | Spec/AxesSpec.v and AxesOps.v: points and requests with the axes in another order; simulation between the two runs (Proofs/AxesBase.v, AxesSimple.v, AxesPop.v, AxesNested.v, AxesMpmc.v with Spec/AxesMpmcOps.v); the determinant is the same when rows and columns are reordered alike (Proofs/AxesDet.v); HiDaisee: Spec/HdCoords.v, Proofs/ChartHd.v |
| C114 | plot_utils.py plot_pdf, plot_grid_sampled_pdfs and plot_pdf2d, CDistribution.draw, draw1d, debug contours of CBenchmark: Model/DensityPlots.v | Spec/DensityPlotSpec.v: a table showing a function on two axes; index arithmetic of reshape and transpose, ceiling of the number of levels (Proofs/DensityPlotProofs.v) |
| C115 | draw methods of tree_pyramid.py, hi_daisee.py, base.py and metropolis_hastings.py: Model/SamplerPicture.v | Spec/PictureRects.v: rectangles paving a rectangle; from the partitions of C46 and C52, and an invariant of the chain (its last trajectory point is where it is; Proofs/SamplerPictureProofs.v) |
| C116 | CNearestNeighbor.py, CKernelDensity.py: Model/Nonparametric.v | Spec/NonparametricSpec.v: nearest points, outcomes of a multinomial draw; induction over the points of the search tree |
| C117 | tree_pyramid.py without leaf resampling: Model/TreeSampler.v | Spec/RefineSpec.v, Spec/ResetSpec.v; a leaf's value is its target value times the square of its volume, so greedy splitting keeps the volumes within a factor; Riemann sums over the leaves; invariant of the starved leaf |
| C118 | metropolis_hastings.py, layered_ais.py, rejection.py, nested.py: Model/MetropolisHastings.v, Population.v, Rejection.v, Nested.v | Spec/FlatSpec.v (constant densities, clipped walks); invariants over histories: no REJECT label, all but the first live point fixed |
| C119 | utils/video_writer.py: Model/Video.v (byte order of the canvas, the reshape to height, width, 3, the exchange of channels, the encoder's silent refusal of other sizes) | Spec/VideoSpec.v (same picture: sizes and every pixel); induction over the figures, index arithmetic of row-major buffers |
| C120 | run_benchmark.py, run_plots.py, CBenchmark.py run, _check_make_paths, write_results, make_plots: Model/Programs.v (a file system of directories, files and permissions; relative paths; the evaluation of a target as rows and an optional exception; pictures left out) | Spec/ProgramSpec.v (rows of an evaluation up to the first exception); frame lemmas for files, induction over the targets |
| C121 | CMixtureModel.py, CMultivariateDelta.py: Model/Mixture.v, MixtureLaw.v, Delta.v | Spec/SameMixtureSpec.v (rewriting relation on weights and components); one positive factor for weights, densities and mean values, by induction over the rewriting; uses C108_joint |
| C122 | constructors of all sampling methods, def_methods.yaml, README.md, the animations: Model/Construct.v | Spec/ConstructSpec.v (needed and documented entries); each constructor is a list of reads, writes and checks; equivalence per action, a key that is read and never written must be given |
| C123 | nested.py (multi_nested.py uses the same weights): Model/Nested.v | Spec/NestedSpec.v, Spec/EstimateSpec.v (weighted mean); telescoping bound of the sum of shells, change of a quotient of sums; RInt of Coquelicot for the true mean |
| C124 | base.py:162-179 _update_model after rejection.py, metropolis_hastings.py and nested.py: Model/Base.v, Model/Mixture.v | Spec/ChoiceSpec.v (all sequences of k choices, plain average), Spec/DensitySpec.v; sum over all sequences by induction on k |
| C125 | nested.py:48-50, 70-75, multi_nested.py:101-103, 220-225: Model/Nested.v | Spec/NestedSpec.v; Gibbs' inequality against a geometric law, mean position bounded by the enclosed mass |
| C126 | metropolis_hastings.py:83-142: Model/MetropolisHastings.v; nested.py:48-75, multi_nested.py:191-230: Model/Nested.v; dm_ais.py, layered_ais.py: Model/Population.v; rejection.py: Model/Rejection.v; hi_daisee.py: Model/HiDaisee.v; tree_pyramid.py: Model/TreeSampler.v; m_pmc.py: Model/MPMC.v | Spec/SupportSpec.v, Spec/PopulationSpec.v; an accepted proposal cannot have log density -inf or NaN because no number is below the acceptance ratio then; recorded likelihood at most the density of the sample as an invariant of the history; positive mixture density of M-PMC as an invariant, weight = density over a positive number |
| C127 | d02_exponential.py, d03_maxwell.py, d04_laplace.py, d10_symmetric_pareto.py, d01_uniform.py: Model/BenchDen.v, Model/Exponential.v, Model/Uniform.v, Model/Saved.v (supports) | Coquelicot's is_RInt; antiderivatives on the two halves, lower bound of exp 4 by repeated squaring |
| C128 | rejection.py, dm_ais.py, layered_ais.py, nested.py, multi_nested.py, hi_daisee.py, metropolis_hastings.py, m_pmc.py: Model/Rejection.v, Model/Population.v, Model/Nested.v, Model/HiDaisee.v, Model/MetropolisHastings.v, Model/MPMC.v | invariants of the loops under a zero target (Proofs/MasslessProofs.v); the weights through normalise and nested_weights |
| C129 | rejection.py, dm_ais.py, layered_ais.py, m_pmc.py, nested.py: Model/Rejection.v, Model/Population.v, Model/MPMC.v, Model/Nested.v | two runs on one tape: the run for the easier setting is never behind (a turn draws as many points as are missing, so a run that is ahead by d looks at d points fewer); prefixes through a common form of the batch loops |
| C130 | rejection.py, nested.py, multi_nested.py, metropolis_hastings.py, dm_ais.py, m_pmc.py, layered_ais.py, hi_daisee.py: Model/Rejection.v, Model/Nested.v, Model/MetropolisHastings.v, Model/Population.v, Model/MPMC.v, Model/HiDaisee.v | two runs on one tape with two targets: every turn evaluates the targets at recorded points only (ghost_drawn, ns_seen, mh_traj or the samples), and the record never loses a point |

## 5. Status and assumptions per theorem

Generated from the property files; `Print Assumptions` was run on each theorem.

Axiom sets:

* **A0**: none (closed under the global context)
* **A1**: `ClassicalDedekindReals.sig_forall_dec`, `FunctionalExtensionality.functional_extensionality_dep`
* **A2**: `ClassicalDedekindReals.sig_not_dec`, `ClassicalDedekindReals.sig_forall_dec`, `FunctionalExtensionality.functional_extensionality_dep`
* **A3**: `ClassicalDedekindReals.sig_not_dec`, `ClassicalDedekindReals.sig_forall_dec`, `FunctionalExtensionality.functional_extensionality_dep`, `Classical_Prop.classic`
* **A4**: `Classical_Prop.classic`

| id | status | theorems (axiom set) | note |
|---|---|---|---|
| C01 | proved | `C01_weights_normalised` (A0), `C01_scale_invariant` (A0), `C01_accepted_lengths` (A0) |  |
| C02 | partial | `C02_equal_fallback_refuted` (A0), `C02_zero_fallback_partial` (A3) | refuted: with no positive finite weight zeros are stored, not equal weights; proved that the stored weights are then all zero and otherwise follow C01 |
| C03 | proved | `C03_convex_combination` (A3) |  |
| C04 | partial | `C04_live_components_partial` (A0), `C04_selection_law` (A0), `C04_dead_component_refuted` (A0) | refuted when every weight is unusable: the last component is always sampled though it was given weight zero; selection law and liveness proved otherwise |
| C05 | proved | `C05_uniform_density` (A3), `C05_inside_outside` (A3) |  |
| C06 | partial | `C06_integral_fraction_partial` (A0), `C06_integral_support` (A0), `C06_integral_monotone_partial` (A0), `C06_disjoint_negative_refuted` (A0), `C06_disjoint_positive_refuted` (A0), `C06_flat_query_refuted` (A0) | refuted: disjoint query boxes give negative mass (1-D) or spurious mass above one (2-D), flat boxes raise; proved when the query box meets the support |
| C07 | partial | `C07_samples_in_support_partial` (A0), `C07_lower_face_refuted` (A0) | refuted: a unit draw of exactly zero puts the sample on a lower face with density zero; proved for positive draws, and for the closed support always |
| C08 | proved | `C08_density_after_history` (A3), `C08_peak_at_mean` (A3), `C08_translation` (A3), `C08_diagonal` (A3), `C08_peak_needs_psd` (A3), `C08_normalised_1d` (A3) | for covariances with positive semi-definite inverse as stated; C08_peak_needs_psd shows the condition is needed and that the constructor does not enforce it |
| C09 | partial | `C09_unit_mean_partial` (A3), `C09_unit_mean_iff_partial` (A3), `C09_mean_e_refuted` (A3), `C09_outlier_log_refuted` (A3), `C09_no_positive_row_refuted` (A3) | refuted: right exactly for mean one; wrong density for every other mean, log density 0 outside the support, IndexError for a batch without positive rows |
| C10 | partial | `C10_densities` (A3), `C10_normalised` (A3), `C10_log_density_partial` (A3), `C10_maxwell_log_refuted` (A3) | refuted: the Maxwell log density is 0 where the density is 0; densities, normalisation, Laplace and Pareto log densities proved in full |
| C11 | partial | `C11_benchden_uniform_refuted` (A0) | refuted: density 1/2 on (-1/2, 3/2] |
| C12 | proved | `C12_compact_kernels` (A3), `C12_location_bandwidth` (A3), `C12_normal_kernel` (A3) | the normal kernel uses a rounded constant: its integral is strictly below one and within 1e-11 of it |
| C13 | partial | `C13_flat_vector_refuted` (A3), `C13_laplace_column_refuted` (A3), `C13_shape_contract_partial` (A0), `C13_one_value_per_row` (A3), `C13_empty_batch_refuted` (A3) | refuted: the empty batch raises IndexError, flat vectors are refused by the exponential and Maxwell densities, Laplace answers with a column; accepted shapes of the common check characterised exactly |
| C14 | proved | `C14_estimate_bounded` (A0), `C14_constant_exact` (A0) |  |
| C15 | proved | `C15_from_log_likelihood` (A3), `C15_from_likelihood` (A3), `C15_no_value` (A3) |  |
| C16 | proved | `C16_answers_iff_conditioned` (A3), `C16_log_surrogate` (A3), `C16_likelihood_surrogate` (A3) |  |
| C17 | proved | `C17_kl_divergence` (A3), `C17_entry_points_agree` (A3), `C17_scale_invariant` (A3) |  |
| C18 | partial | `C18_disjoint_zero_refuted` (A3), `C18_disjoint_always_zero` (A3), `C18_uncovered_mass_refuted` (A3), `C18_density_entry_partial` (A3) | refuted: the reported value is 0 for every disjoint pair, and mass of p where q vanishes is ignored; the density entry point returns inf for disjoint supports |
| C19 | proved | `C19_js_divergence` (A3), `C19_symmetric` (A3), `C19_scale_invariant` (A3), `C19_nan_points_ignored` (A3) |  |
| C20 | partial | `C20_disjoint_zero_refuted` (A3), `C20_disjoint_always_zero` (A3) | refuted: every disjoint pair is reported as 0 |
| C21 | proved | `C21_evmse_value` (A0), `C21_evmse_proportional` (A0), `C21_evmse_scale` (A0), `C21_evmse_symmetric` (A0) | the norm is a square root, so the squared value is stated over the rationals |
| C22 | proved | `C22_approx_ness_range` (A0), `C22_approx_ness_scale` (A0) | over exact rationals; weights given as the list of the object |
| C23 | proved | `C23_elapsed_total` (A0), `C23_elapsed_new` (A0) |  |
| C24 | partial | `C24_memory_reset_refuted` (A0), `C24_memory_total_partial` (A0) | refuted: reset() does not clear the accumulated value; additivity over calls proved |
| C25 | proved | `C25_rejection_request` (A0), `C25_rejection_terminates` (A0) | rejection loop over arbitrary tapes; request, prefix, weights, and termination for every sufficiently accepting tape |
| C26 | proved | `C26_rejection_rule` (A0), `C26_rejection_positive` (A0) | accepted samples are exactly the kept offers, in order |
| C27 | partial | `C27_rejection_counters_exact_refuted` (A0), `C27_rejection_counters_partial` (A0), `C27_rejection_counter_law_partial` (A0), `C27_rejection_effort_history_partial` (A0), `C27_rejection_acceptance_rate` (A0) | refuted: each round counts the whole request although only the missing points are drawn. Proved: the exact law of the counters over all histories (rounds run times request, plus points returned by sample()), and the acceptance rate is in (0,1] |
| C28 | partial | `C28_rejection_returns_refuted` (A0), `C28_rejection_returns_partial` (A0) | refuted: a timeout before the first acceptance raises; returns whenever at least one sample is held |
| C29 | proved | `C29_mh_confined` (A0), `C29_mh_sample_confined` (A0) |  |
| C30 | proved | `C30_mh_bookkeeping` (A0), `C30_mh_sample_labels` (A0) |  |
| C31 | partial | `C31_mh_sample_n_refuted` (A0), `C31_mh_sample_rows_partial` (A0) | refuted: sample(n) returns n*n rows |
| C32 | partial | `C32_mh_moves_accepted_refuted` (A0), `C32_mh_moves_accepted_partial` (A0), `C32_mh_acceptance_rule` (A0), `C32_mh_zero_density_rejected` (A0) | refuted on timeout (last refused proposal becomes the state); proved when no clock reading reaches the limit; acceptance test equals the Metropolis-Hastings rule |
| C33 | partial | `C33_acceptance_probability` (A3), `C33_detailed_balance_partial` (A1), `C33_step_law` (A0), `C33_not_stationary_refuted` (A0) | refuted: a rejected attempt is repeated instead of counting as a step, so the target is not stationary; acceptance probability and detailed balance of one attempt, and the law of the repeated attempts, are proved |
| C34 | partial | `C34_nested_sorted` (A0), `C34_nested_attached_partial` (A0), `C34_multi_attached_partial` (A0), `C34_first_attached_refuted` (A0) | refuted for the first sample, which is a view of the live point being replaced; order of the likelihoods and attachment of all later ones proved (attachment also for multi-nested) |
| C35 | partial | `C35_nested_weights` (A3), `C35_prior_mass_refuted` (A3), `C35_nested_weights_zero` (A2) | refuted: the shells add up to 2 - exp(-(n-1)/N) > 1; finiteness, sign, sum and proportionality of the weights proved |
| C36 | partial | `C36_nested_confined_partial` (A0), `C36_multi_confined_partial` (A0), `C36_nested_confined_refuted` (A0) | refuted: redraws are not clipped; proved for targets that vanish outside the space when no search is cut off |
| C37 | proved | `C37_clustering_partition` (A0), `C37_clustering_too_few` (A0) | the k-means labels, ellipsoid volumes and distances are arbitrary oracles |
| C38 | partial | `C38_nested_request` (A0), `C38_nested_failure` (A0), `C38_multi_request_partial` (A0), `C38_multi_request_refuted` (A0) | refuted for multi-nested sampling, which rounds the number of draws per group down; proved for nested sampling |
| C39 | partial | `C39_dm_request` (A0), `C39_dm_weights` (A0), `C39_dm_counters_partial` (A0), `C39_dm_q_evals_refuted` (A0), `C39_dm_q_evals_zero` (A0), `C39_dm_counters_refuted` (A0) | refuted: the proposal-evaluation counter is never incremented, and a call whose batch misses the target's support raises ValueError with the counters already advanced; request, weights and the other counters proved |
| C40 | proved | `C40_dm_run` (A0), `C40_dm_batch` (A0) | a batch with zero target density everywhere raises instead (characterised exactly) |
| C41 | proved | `C41_lais_means` (A0) |  |
| C42 | proved | `C42_lais_effort` (A0) |  |
| C43 | partial | `C43_mixture_weights_partial` (A4), `C43_mixture_weights_refuted` (A0), `C43_posteriors` (A4), `C43_means_in_batch` (A4), `C43_returned_weights_partial` (A4), `C43_returned_weights_refuted` (A0), `C43_missed_target_refuted` (A0), `C43_quotients` (A3) | refuted: the returned weights are normalised per batch only and sum to the number of batches; a batch missing the target's support gives NaN weights (and a NaN mixture); after a refused covariance the mixture weights no longer sum to one. Proved: mixture weights, posteriors and means whenever no call raised since the last reset, weights non-negative with sum = number of batches. The quotients are shown equal to the code's exp/log expressions over the reals |
| C44 | partial | `C44_moments_partial` (A4), `C44_scatter_dominates` (A0), `C44_covariance_refuted` (A0) | refuted: the covariance is the raw unweighted scatter around the new mean (or 10 times the identity when an entry exceeds 10), never smaller than the weighted covariance; the mean is the weighted mean of equation 14.2 |
| C45 | proved | `C45_bookkeeping` (A0), `C45_children` (A0) |  |
| C46 | proved | `C46_partition` (A0), `C46_unique_leaf` (A0), `C46_sampler_partition` (A0) |  |
| C47 | partial | `C47_find_partial` (A0), `C47_get_child` (A0), `C47_find_refuted` (A0), `C47_find_never` (A0) | refuted: find resets its start node to the root, so once the root is expanded every lookup ends in RecursionError; proved: on an unexpanded tree it returns the root, and the single step get_child returns a child cell containing the point for every node and every point of its cell |
| C48 | partial | `C48_resample_partial` (A0), `C48_node_partial` (A0), `C48_leaves` (A0), `C48_boundary_refuted` (A0), `C48_normal_refuted` (A0) | Leaf resampling with the uniform kernel (all trees, targets, half-open draws), the draw of a node (all kernels, open draws) and the leaves of all simple-flow histories are proved. Refuted: the draw 0 gives an infinite weight, NaN after normalisation; with the normal kernel the resampling weights ignore the scale of the cell. |
| C49 | partial | `C49_density` (A0), `C49_outside` (A0), `C49_mass_partial` (A0), `C49_fresh_refuted` (A0), `C49_faces_refuted` (A0) | Formula inside and outside the leaves for every state; mass one or identically zero after every returned call of the simple flow, exactly one for positive targets. Refuted: a fresh or reset object reports zero everywhere; on faces between leaves the density is zero. |
| C50 | partial | `C50_one_per_leaf_partial` (A0), `C50_overlap_refuted` (A0), `C50_last_only_refuted` (A0), `C50_sound` (A0) | Exact when an expansion never waits for more samples (ESS target at least 1, n_min at most 1); nothing is invented in any mode. Refuted: with n_min 2 samples held by leaves are lost (overlapping slices for ESS target 1, only the last one for ESS target 2). |
| C51 | partial | `C51_simple_partial` (A0), `C51_simple_refuted` (A0), `C51_mixture` (A0) | Mixture flow exact after every history. Simple flow: after the first call the evaluations of the root are missing by exactly one (refuted), otherwise exact. |
| C52 | proved | `C52_partition` (A0) |  |
| C53 | partial | `C53_keeps_samples_partial` (A0), `C53_after_failure_refuted` (A0) | proved for every call of a history in which no call failed since the last reset. Refuted after a failed call: its samples stay in the tree but are not counted, so the next call returns too many |
| C54 | partial | `C54_root_partial` (A0), `C54_path_partial` (A0), `C54_parent_refuted` (A0) | proved for the root in every history and for every node a draw passed except the leaf's direct parent, which is proved to keep its old value; refuted by a tree of depth two |
| C55 | partial | `C55_failures_partial` (A0), `C55_call_ends` (A0), `C55_fine_draws_partial` (A0), `C55_zero_draw_refuted` (A0), `C55_split_plane_refuted` (A0) | a call returns, or fails with exactly the two documented causes; with draws that are no dyadic rationals no call of any history fails. Refuted for the draw 0 (assertion) and for a sample on a split plane (ValueError) |
| C56 | partial | `C56_evaluation_ends_partial` (A0), `C56_time_limit_refuted` (A0) | proved for methods whose calls end and gain a sample whenever asked for more than they hold: no evaluation hangs and at most max_samples calls per repetition. Refuted for the time limit: the elapsed time is never measured, so a rejection sampler that stops accepting is called for ever, each time with the whole limit |
| C57 | proved | `C57_rows` (A0), `C57_counts_grow` (A0), `C57_rejection_keeps` (A0), `C57_exact_counts` (A0), `C57_zero_samples` (A0), `C57_run_rows` (A0) | for a non-negative time limit (with a negative one the loop stops after the first call); max_samples = 0 is proved to raise ZeroDivisionError; the rejection sampler is an instance of a method that keeps its samples |
| C58 | partial | `C58_table_partial` (A0), `C58_wide_ness_refuted` (A0), `C58_ness_metric_refuted` (A0), `C58_repeated_metric_refuted` (A0), `C58_repeated_value_refuted` (A0), `C58_spaced_name_refuted` (A0) | proved for repetition-free lists of the five implemented metrics, names that are single words and NESS values in [-999, 9999] or not finite; every field is proved to read back as the value it shows. Refuted: a NESS value of nine or more characters fuses with the last metric (reached by three rejection samples), NESS or an unknown metric in the list has a heading but no value, repeated metrics collapse, names with spaces |
| C59 | partial | `C59_nested_reproducible` (A0), `C59_multi_nested_reproducible` (A0), `C59_population_reproducible` (A0), `C59_mpmc_reproducible` (A0), `C59_tree_reproducible` (A0), `C59_hidaisee_reproducible` (A0), `C59_history_forgotten_partial` (A0), `C59_rejection_reproducible` (A0), `C59_mh_refuted` (A0) | proved for every sampler whose reset does not depend on the object's state, with instances for rejection, nested, multi-nested, deterministic-mixture and layered AIS, M-PMC, tree pyramid and HiDaisee objects in any two states; refuted for Metropolis-Hastings, whose reset keeps the chain position |
| C60 | proved | `C60_hms_reading` (A0), `C60_hms_unique` (A0) |  |
| C61 | proved | `C61_grid` (A0) | row order follows numpy meshgrid (xy indexing) and is part of the model |
| C62 | partial | `C62_random_gmm_partial` (A0), `C62_default_sigma_refuted` (A0), `C62_default_sigma_2d_refuted` (A0), `C62_room_refuted` (A0), `C62_eggbox` (A0) | refuted: the default deviations have three entries (wrong dimension in 1-D, ValueError in 2-D) and a space narrower than ten deviations puts means outside; proved for deviations of the right dimension with room, and for the egg box target |
| C63 | partial | `C63_reads_in_order` (A0), `C63_clear_in_order` (A0), `C63_clear_newest` (A0), `C63_never_blocks` (A0), `C63_call_returns` (A0), `C63_keep_last_refuted` (A0), `C63_keep_last_loses_refuted` (A0), `C63_keep_last_partial` (A0), `C63_keep_newest_partial` (A0) | refuted for keep_last=True (a line queued in the window before the put-back is overtaken or lost); order, newest, never-blocking and bounded return proved over all interleavings otherwise |
| C64 | partial | `C64_mh_reset_refuted` (A0), `C64_rejection_reset` (A0), `C64_mh_reset_partial` (A0), `C64_nested_reset` (A0), `C64_multi_nested_reset` (A0), `C64_population_reset` (A0), `C64_mpmc_reset` (A0), `C64_tree_reset` (A0), `C64_hidaisee_reset` (A0) | Reset is modelled as the assignments of the code on the old object (base class, then subclass), separately from construction. Proved for rejection, nested, multi-nested, DM-AIS, LAIS, M-PMC, tree pyramid and HiDaisee: nothing of the history is left and every later history is one of a new object. False for Metropolis-Hastings (C64_mh_reset_refuted): reset keeps the chain position; C64_mh_reset_partial says nothing else survives. |
| C65 | proved | `C65_kde_rejection` (A0), `C65_kde_mh` (A0), `C65_kde_present_rejection` (A0), `C65_kde_present_mh` (A0), `C65_kde_weights` (A0) | rejection and Metropolis-Hastings histories, including prob/log_prob/sample calls that build the model lazily |
| C66 | proved | `C66_mh_request` (A0) |  |
| C67 | partial | `C67_ness_finite_refuted` (A0), `C67_ness_at_most_one_refuted` (A0), `C67_ness_positive_refuted` (A0), `C67_ness_invariance_partial` (A0), `C67_ness_law_partial` (A0), `C67_ness_shift_refuted` (A0) | refuted: can be infinite (samples 0,1,2), above one, negative, and changes when one coordinate is shifted; proved: the exact value from the autocorrelations and the truncation lag for every sequence with two different entries, and invariance under shifting and rescaling all coordinates alike |
| C68 | partial | `C68_nested_NESS_partial` (A3), `C68_nested_NESS_refuted` (A3) | refuted: a zero weight gives NaN; proved for positive weights |
| C69 | proved | `C69_nested_effort` (A0) |  |
| C70 | proved | `C70_lais_run` (A0), `C70_walk_support` (A0), `C70_lais_request` (A0) |  |
| C71 | partial | `C71_mpmc_request` (A4), `C71_mpmc_effort` (A4), `C71_mpmc_raises_refuted` (A0), `C71_mpmc_single_sample` (A4), `C71_mpmc_coincident` (A4) | refuted: one sample per batch, or any batch of coincident samples, raises AssertionError (singular covariance) with the work counted and the batch dropped; request and counters proved for every history. After a batch that misses the target the loop is modelled as not returning |
| C72 | partial | `C72_delivers_partial` (A0), `C72_zero_refuted` (A0), `C72_zero_runs` (A0) | proved for an ESS target above 1 and n_min at most 1 (every history, target, tape and clock). Refuted: with an ESS target of at most 1, samples of weight zero are not counted, so that a target all draws miss is sampled until the time is over without getting any sample |
| C73 | partial | `C73_few_leaves` (A0), `C73_never_returns` (A0), `C73_next_raises` (A0), `C73_request_refuted` (A0) | false of the code because find restarts from the root: in every history the tree has 1 or 2^d leaves, a call for more than 2^d samples never returns (unless its timeout is over), and a call that needs more samples after the root was expanded raises in its first turn (C73_request_refuted: in time, a second call that asks for three samples in one dimension raises and leaves fewer than three) |
| C74 | proved | `C74_greedy` (A0) |  |
| C75 | partial | `C75_first_call_partial` (A0), `C75_second_call_refuted` (A0) | proved for the first call of an object (ESS target above 1, n_min at most 1, no resampling). Refuted: the next call mixes the already normalised weights with raw new ones |
| C76 | partial | `C76_density_partial` (A0), `C76_zero_weights` (A0), `C76_total_refuted` (A0), `C76_initial_density` (A0) | proved when some returned weight is positive; refuted when all weights are zero (proved: the density is then zero everywhere) |
| C77 | proved | `C77_counters` (A0) |  |
| C78 | partial | `C78_gmm_density_partial` (A3), `C78_default_weights_partial` (A3), `C78_negative_variances_refuted` (A3) | density, log density, positivity and mass proved for positive variances, for given and for default weights; refuted: the constructor only looks at the sign of the determinant, so an even number of negative variances is accepted and the density grows without bound away from the mean |
| C79 | partial | `C79_delta_density_partial` (A0), `C79_samples` (A0), `C79_elsewhere_refuted` (A0), `C79_integral_refuted` (A0) | proved with the tolerance of isclose (1e-8 + 1e-5 \|x\|); refuted: points other than the centre within that tolerance get density +inf, and integral never answers (NameError, or AssertionError for reversed bounds) |
| C80 | proved | `C80_banana_values` (A3), `C80_mirror` (A2), `C80_mass` (A3), `C80_shapes` (A2) | the mass is not one; the class only promises proportionality. An array without rows is accepted whatever its width |
| C81 | partial | `C81_samples` (A0), `C81_unconditioned` (A0), `C81_density_partial` (A0), `C81_density_refuted` (A0), `C81_width_refuted` (A0) | samples and the conditioning protocol proved for all histories; the density is proved only for functions that return their argument; refuted otherwise: the code subtracts the conditioning value, not the function value (with f = doubling no sample has positive density), and with fewer outputs than inputs every density query raises ValueError |
| C82 | proved | `C82_first_event` (A0), `C82_ends` (A0), `C82_ready` (A0) | a timeout that is not positive raises although the distribution is ready. GenericNoisyFunction overrides the method and returns None at once |
| C83 | proved | `C83_aligned` (A0), `C83_methods` (A0), `C83_run` (A0) | entries are records of optional keys and constructor outcomes; YAML parsing and the evaluation itself (C56-C59) are outside |
| C84 | partial | `C84_box_near_partial` (A0), `C84_box_exact_partial` (A0), `C84_box_refuted` (A0) | refuted: the bounds travel as text with eight digits (support [0, 1 + 2^-10] gives a smaller box, however ties are broken); proved: agreement up to half a unit of the eighth digit, exact for bounds with at most eight digits after the point; arrays of more than 1000 entries (printed with dots) are outside |
| C85 | partial | `C85_points_partial` (A2), `C85_own_rows_partial` (A2), `C85_height_partial` (A2), `C85_range_partial` (A2), `C85_band_partial` (A2), `C85_height_refuted` (A2), `C85_short_curve` (A2), `C85_missing_refuted` (A2), `C85_band_refuted` (A2), `C85_band_root_refuted` (A2) | proved: the points of a curve, their order, independence of other rows, the height as mean of the averages at the last ten counts, its range, and the width of the band; refuted: the height is not the average at that count, a curve of fewer than ten counts is empty, the band ignores the repetitions and is the square root of a standard deviation |
| C86 | partial | `C86_explores_partial` (A0), `C86_starved_refuted` (A0) | proved while no call has failed since the last reset; refuted after a failed call: the next call numbers its turns from 0, a leaf's value becomes NaN and half of the space is never sampled again, whatever is called later, until reset |
| C87 | proved | `C87_first_accepted` (A0), `C87_exact` (A0), `C87_waiting` (A0), `C87_low_envelope` (A0) | the returned points are the first accepted ones of the stream of proposals; their law for proposals with finitely many values (cells of any fineness); C87_low_envelope: the bound on the scaling is needed |
| C88 | partial | `C88_batch` (A0), `C88_lais_call` (A0), `C88_dm_call_partial` (A0), `C88_dm_call_refuted` (A0) | proved for every turn of the loop of both samplers, for whole calls of layered AIS, and for whole calls of deterministic mixture AIS with a target that is positive everywhere; refuted for deterministic mixture AIS when the target vanishes somewhere: a batch without a sample in the support ends the call with an exception and the expected total is too small. Proposals on finitely many cells |
| C89 | partial | `C89_density_bounds_partial` (A0), `C89_density_bounds_refuted` (A0) | proved for every history when each box in use holds a returned sample; refuted otherwise: a split leaves an empty box whose reported density is 0 although the target is positive on it |
| C90 | partial | `C90_evidence_partial` (A0), `C90_mean_weight_low` (A0), `C90_evidence_refuted` (A0) | refuted: weights are target times volume of the box and not divided by the share of samples in it, so that the mean weight is below the stratified estimate on every execution with two boxes in use; what holds is that the mean weights of the boxes add up to a value between the Riemann sums |
| C91 | partial | `C91_adaptation_partial` (A3), `C91_mean_step` (A3), `C91_adaptation_refuted` (A3) | The full statement is false of the code: the covariance of a component is the unweighted sum of the scatter of the batch, so a proposal that already equals the target is replaced by a wider one and the fit falls (C91_adaptation_refuted, for any positive component density and the real normal log density). Proved: the fit never falls when no component gets worse on the weights it is responsible for (C91_adaptation_partial: mixture weights and responsibilities are those of expectation maximisation), and the new mean alone is never worse for a Gaussian component (C91_mean_step). |
| C92 | proved | `C92_unbiased` (A0), `C92_mean_square` (A0), `C92_error_chance` (A0), `C92_true_integral` (A2) | The law of the draws is the product of finite uniform laws with G equally likely outcomes per unit number, for every G (numpy has 2^53), so no idealised continuous draw is assumed; rounding of height * u is not modelled. C92_true_integral links the average over the grid to the real integral in one dimension. |
| C93 | partial | `C93_never_loads` (A3), `C93_gmm_partial` (A3), `C93_save_again` (A3), `C93_fixed_partial` (A3), `C93_parameters_lost` (A3), `C93_saved_target_refuted` (A3) | False of the code: to_dict writes the type as distributions.<class>, and in the loader the name distributions is the submodule distributions/distributions.py, which has none of the classes, so loading ends in ValueError for every object (C93_never_loads, C93_saved_target_refuted). Proved with the class name alone as the type: a Gaussian mixture with finite weights comes back with the same density, dimension, support and evaluation parameters (C93_gmm_partial), the parameterless classes come back as they were (C93_fixed_partial). All other classes lose a required parameter (C93_parameters_lost), and a loaded mixture cannot be saved again since its rows are Python lists (C93_save_again). |
| C94 | partial | `C94_kl_error_partial` (A3), `C94_js_error_partial` (A3), `C94_kl_integral_partial` (A3), `C94_js_integral_partial` (A3), `C94_outside_mass_refuted` (A3) | Proved for densities with 0 < lo <= p, q <= hi on the evaluation points: explicit constants over the number of samples, for any finite set of equally likely points, and against the integrals on a segment for Lipschitz densities (C94_kl_integral_partial, C94_js_integral_partial). False when q has mass outside the support of p: the points come from the support of p only and q is rescaled there, so p uniform on [0,1] against q uniform on [0,2] is reported as 0 by both metrics for every sample, where the divergence is ln 2 (C94_outside_mass_refuted). Zeros of either density inside the support are the subject of C18 and C20. |
| C95 | partial | `C95_lais_integral` (A4), `C95_lais_estimate` (A4), `C95_dm_integral_partial` (A4), `C95_dm_estimate_partial` (A4), `C95_dm_estimate_refuted` (A0) | Proved for layered AIS with any non-negative target (C95_lais_integral, C95_lais_estimate) and for deterministic mixture AIS with targets positive everywhere (C95_dm_integral_partial, C95_dm_estimate_partial), after any history of operations. False of deterministic mixture AIS when the target vanishes somewhere: a first batch outside the support makes the resampling raise, so the chance of having no estimate does not decrease with n (C95_dm_estimate_refuted, chance at least 3/16 for every n). |
| C96 | partial | `C96_sample_law_partial` (A0), `C96_equal_rates_partial` (A0), `C96_target_refuted` (A0) | False: rejected attempts are repeated, so the chain only visits accepted points. Proved instead: geometric convergence from any start to the law with masses target times acceptance rate (C96_sample_law_partial), which is the target when the acceptance rate is the same everywhere (C96_equal_rates_partial). Refuted for the target: masses 1 and 3, limit 1/3 instead of 1/4 however long the burn-in (C96_target_refuted). |
| C97 | partial | `C97_centres_law_partial` (A0), `C97_target_kept_partial` (A0), `C97_border_refuted` (A0) | False near the border of the box: displaced points are clipped to the border and accepted by the ratio of the target alone, so the border is visited too often (C97_border_refuted: uniform target, the middle point has probability 1/5 instead of 1/3 after any number of turns). Proved when displacements from the support stay inside the box: the target is kept exactly (C97_target_kept_partial) and approached geometrically from any start (C97_centres_law_partial). |
| C98 | partial | `C98_rejection` (A0), `C98_population` (A0), `C98_mpmc` (A0), `C98_mh_partial` (A0), `C98_mh_refuted` (A0), `C98_nested_refuted` (A0), `C98_tree` (A0) | Proved for rejection sampling, DM-AIS, layered AIS, M-PMC and the tree pyramid. False of Metropolis-Hastings, whose burn-in ignores the limit (C98_mh_refuted; between samples the limit holds: C98_mh_partial), and of nested sampling, where the limit restarts with every replacement (C98_nested_refuted). HiDaisee never reads its timeout argument. |
| C99 | partial | `C99_isolated` (A3), `C99_answer` (A3), `C99_model_draws_partial` (A3), `C99_sample_fails` (A3), `C99_model_draws_refuted` (A3), `C99_sample_refuted` (A3) | The density queries are as stated (C99_isolated, C99_answer). A model draws at its latest conditioning as long as no target built on it is used (C99_model_draws_partial); otherwise the query has moved it (C99_model_draws_refuted). sample(n) always raises TypeError over GenericNoisyFunction (C99_sample_fails, C99_sample_refuted), and over GenericNuisanceGenModel it can return n^3 rows (C99_sample_refuted). |
| C100 | partial | `C100_picture_partial` (A0), `C100_frames_partial` (A0), `C100_axis_remains` (A0), `C100_axis_refuted` (A0), `C100_replacing_fails` (A0), `C100_point_refuted` (A0) | Proved when the replaced items are functions or axes with one tick (C100_picture_partial, C100_frames_partial). A replaced axis leaves all its tick lines but one, since draw_axis does not list them (C100_axis_remains, C100_axis_refuted). A replaced point is a TypeError since ax.scatter returns one artist and not a list, and an axis without ticks a NotImplementedError since its line is listed twice (C100_replacing_fails, C100_point_refuted). |
| C101 | partial | `C101_ticks_partial` (A2), `C101_default_ticks` (A2), `C101_labels_partial` (A2), `C101_labels_refuted` (A2), `C101_ticks_refuted` (A2) | Proved for axes whose position attribute is the origin (C101_ticks_partial, C101_default_ticks). The position moves the axis line but not the ticks (C101_ticks_refuted). On axes below the diagonal, such as the default horizontal one, the label of the value 0 stands on the other side than all others (C101_labels_refuted; C101_labels_partial for the rest). |
| C102 | partial | `C102_fit` (A2), `C102_shift` (A2), `C102_unit_partial` (A2), `C102_line_partial` (A2), `C102_volume_refuted` (A2), `C102_spread_refuted` (A2), `C102_coinciding_refuted` (A2) | Fitting and shifts are proved (C102_fit, C102_shift), and the covariance in two and more dimensions (C102_unit_partial). The volume is computed from the determinant of the covariance instead of its square root and changes by c^(2d) (C102_volume_refuted). In one dimension the standard deviation is used as the variance: the volume is right but the draws are not (C102_line_partial, C102_spread_refuted). Points without spread get an ellipsoid of fixed size (C102_coinciding_refuted). |
| C103 | partial | `C103_law` (A0), `C103_replacement_partial` (A0), `C103_prior_refuted` (A0) | The exact law for every displacement law is C103_law (the first candidate is clipped to the box, later ones are not); when no displacement leaves the box it is the restricted proposal (C103_replacement_partial). It is not the restricted prior: the new point stays near a live point (C103_prior_refuted). |
| C104 | partial | `C104_entries` (A3), `C104_rebuild` (A3), `C104_edits_partial` (A3), `C104_fresh_partial` (A3), `C104_uniform_level` (A3), `C104_uniform_refuted` (A3), `C104_support_refuted` (A3), `C104_failed_refuted` (A3), `C104_name_refuted` (A0) | False for the default support of the normal and exponential classes, which stays in the dictionary (C104_support_refuted), even after a call that failed (C104_failed_refuted), for in-place edits of the radius of a uniform object, whose density then has mass two (C104_uniform_refuted, exact level in C104_uniform_level) and for sampler names (C104_name_refuted). The rest is proved: C104_entries, C104_rebuild, C104_edits_partial, C104_fresh_partial. |
| C105 | proved | `C105_error` (A1), `C105_consistent` (A1), `C105_refines` (A0) | C105_refines: even refinement. C105_error: explicit error of a self-normalised weighted mean after one call, against the integral fixed by Darboux sums over all partitions into cubes. C105_consistent: convergence for every sequence of draws. Hypotheses: target bounded away from zero on the cube of the root, draws inside the leaves. |
| C106 | partial | `C106_nested` (A2), `C106_multi_nested` (A2), `C106_metropolis` (A0), `C106_rejection` (A0), `C106_rejection_refuted` (A0), `C106_population` (A0), `C106_mpmc` (A0), `C106_tree_partial` (A0), `C106_tree_refuted` (A0), `C106_hidaisee_partial` (A0), `C106_hidaisee_refuted` (A0) | Proved for Metropolis-Hastings, nested, multi-nested, DM-AIS, LAIS, M-PMC, and for rejection sampling with its scaling scaled along. C106_tree_partial: leaf resampling, simple flow, one sample per leaf, ess target above one. C106_hidaisee_partial: boost scaled along (in particular no boost); the weights are then multiplied by the constant. Refuted with witnesses: rejection with fixed scaling, tree sampler with ess target 9/10, HiDaisee with a fixed positive boost. |
| C107 | partial | `C107_population` (A0), `C107_mpmc` (A0), `C107_metropolis` (A0), `C107_nested` (A0), `C107_hidaisee_partial` (A0), `C107_tree_partial` (A0), `C107_tree_refuted` (A0), `C107_mixture_refuted` (A0), `C107_rejection_refuted` (A0), `C107_multi_nested_refuted` (A0) | Proved for DM-AIS, LAIS, M-PMC, Metropolis-Hastings and nested sampling (evaluation counter larger by the number of live points). C107_hidaisee_partial: no failed call before. C107_tree_partial: simple flow with leaf resampling or ess target at most one, the second call taking at least one turn. Refuted with witnesses: tree sampler with ess target 2 and no resampling, mixture flow, multi-nested sampling, counters of rejection sampling. |
| C108 | proved | `C108_hidaisee` (A0), `C108_reported` (A3), `C108_joint` (A0), `C108_fair_laws` (A0), `C108_dm` (A0), `C108_dm_mean` (A0), `C108_tree` (A0) | The selector is numpy's chain of Bernoulli draws; its uniform numbers have any finite law that decides the needed ratios like uniform numbers (C108_fair_laws: one exists for every mixture). Component laws are finite. C108_tree: simple flow, uniform kernel, positive targets, call that returned. C108_hidaisee: HiDaisee after a call that returned, with a sample of positive weight. |
| C109 | partial | `C109_hidaisee` (A0), `C109_nested` (A2), `C109_multi_nested_partial` (A2), `C109_multi_nested_refuted` (A0), `C109_metropolis` (A0), `C109_rejection` (A0), `C109_population` (A0), `C109_mpmc_partial` (A0), `C109_mpmc_refuted` (A0), `C109_tree` (A0), `C109_tree_refuted` (A0) | Refuted for M-PMC (failsafe constant 10), multi-nested sampling (minimal distance 0.2) and tree pyramids with the normal kernel (covariance is a quarter of the radius) under a change of unit; proved there for a change of origin, and for the other samplers and the uniform kernel for both, with HiDaisee's reported density (C109_hidaisee). |
| C110 | partial | `C110_keeps` (A0), `C110_nested_partial` (A0), `C110_nested_refuted` (A0), `C110_own` (A0), `C110_own_refuted` (A0), `C110_new_rejection_partial` (A0), `C110_new_population_partial` (A0), `C110_new_refuted` (A0) | First part proved except for nested sampling (refuted for one sample; proved for arrays of another length). Second part proved for the tree samplers and HiDaisee, refuted for the others; for rejection, LAIS and M-PMC the rows added later are proved unaffected. |
| C111 | partial | `C111_divergences` (A3), `C111_statistics` (A0), `C111_autocorrelation_refuted` (A0), `C111_mixture` (A3) | Refuted for the effective sample size from autocorrelations, which depends on the order by its nature; proved for the other quantities. Rounding is not modelled. |
| C112 | partial | `C112_support_partial` (A0), `C112_reach` (A0), `C112_support_refuted` (A0), `C112_cut_off` (A0), `C112_law_partial` (A0), `C112_law_refuted` (A0) | False of the shipped settings: the proposal box is centred at the origin, so a support that is not symmetric is not covered (C112_support_refuted; C112_support_partial says exactly when it is), and with scaling 1 the accepted points follow the target cut off at the proposal density (C112_cut_off), which is the target only if it has one value wherever it is positive (C112_law_partial, C112_law_refuted). |
| C113 | proved | `C113_mpmc` (A0), `C113_nested` (A2), `C113_multi_nested` (A2), `C113_metropolis` (A0), `C113_rejection` (A0), `C113_population` (A0), `C113_hidaisee` (A0) | In multi-nested sampling the clusters, volumes and distances of the live points are taken to be the same in both orders. The tree pyramid samplers, which number the children of a node by axis, are not covered. |
| C114 | partial | `C114_debug_partial` (A3), `C114_debug_refuted` (A3), `C114_contour` (A0), `C114_blank` (A0), `C114_curve` (A0), `C114_draw_partial` (A0), `C114_draw_blank` (A0), `C114_draw_refuted` (A0), `C114_components` (A0), `C114_three_axes_refuted` (A0) | C114_draw_refuted: a support narrower than resolution/1.2 gives no curve, without an error (C114_draw_blank), so CDistribution.draw shows the support only when it is wide enough (C114_draw_partial). C114_debug_refuted: the debug picture of the benchmark takes the density for its logarithm and shows exp(density); the order of heights is right (C114_debug_partial). C114_three_axes_refuted: with three axes the table made with the shape of the grid is not in the order of the axes, so sums over axes (marginalize_axes) would be wrong; for two axes the order is right (C114_contour). Colours, labels and matplotlib itself are not modelled. |
| C115 | partial | `C115_tree` (A0), `C115_hidaisee` (A0), `C115_mixture_partial` (A0), `C115_fresh_refuted` (A0), `C115_two_axes_refuted` (A0), `C115_chain_partial` (A0), `C115_chain_refuted` (A0) | C115_two_axes_refuted: in two dimensions draw of DM-AIS, layered AIS and M-PMC always raises AttributeError (the proposals have no attribute mean). C115_fresh_refuted and C115_chain_refuted: before the first sample drawing raises. C115_mixture_partial, C115_chain_partial: afterwards the pictures are right. C115_tree and C115_hidaisee hold without restriction. Colours, markers of the trajectory and the three-dimensional pictures are not modelled. |
| C116 | partial | `C116_density_partial` (A3), `C116_density_refuted` (A3), `C116_neighbour_partial` (A0), `C116_import_refuted` (A0), `C116_neighbour_refuted` (A0), `C116_rows_partial` (A0), `C116_rows_refuted` (A0), `C116_single_refuted` (A0), `C116_kernel_refuted` (A0) | False of the code. C116_import_refuted: the constructor of CNearestNeighbor uses a module variable that an import does not define, so it always raises. C116_kernel_refuted: the constructor of CKernelDensity always raises. Where the variable happens to exist and holds the samples given, log_prob is the weight of a nearest sample (C116_neighbour_partial); with other contents it may be the weight of another one (C116_neighbour_refuted). Moreover prob is its exponential and nowhere below one (C116_density_partial, C116_density_refuted), and sample(n) takes the counts of the draw for indices: it returns as many rows as there are weights (C116_rows_partial, C116_rows_refuted) and refuses every request when there is one sample (C116_single_refuted). |
| C117 | partial | `C117_refines_partial` (A0), `C117_error_partial` (A1), `C117_consistent_partial` (A1), `C117_starved_refuted` (A0), `C117_second_call_refuted` (A1) | False of the code. C117_starved_refuted: with a target that vanishes on part of the box, there is a state after one call from which on exactly one returned sample ever lies in half of the box, whatever the later calls and draws, although a third of the target's mass is there. C117_second_call_refuted: all hypotheses of the error bound are met but the call is the second one; the bound fails, because the leaves of the first call keep normalised weights. Proved: after every history on targets with values in [m, M], m > 0, the leaves shrink as their number grows (C117_refines_partial), and the estimates of one call on a new or reset sampler obey the bound and converge for all draws (C117_error_partial, C117_consistent_partial). |
| C118 | partial | `C118_chain_never_rejects` (A0), `C118_layers_walk` (A0), `C118_rejection_takes_all` (A0), `C118_nested_first_try` (A0), `C118_live_points_refuted` (A0) | False of the code for the last sentence. C118_live_points_refuted: the first of equal minima is always taken, so after any number of samples on constant targets only live point 0 has ever been replaced. Proved: Metropolis-Hastings never rejects after and during any history (C118_chain_never_rejects), the means of layered AIS follow all displacements (C118_layers_walk), rejection with an exact envelope takes everything (C118_rejection_takes_all), and nested sampling accepts the first candidate every time (C118_nested_first_try). |
| C119 | partial | `C119_saved_partial` (A0), `C119_resized_refuted` (A0), `C119_shown_partial` (A0), `C119_shown_refuted` (A0), `C119_empty_refuted` (A0) | False of the code in three ways. C119_shown_refuted: show exchanges width and height for every figure that is not square; C119_resized_refuted: frames of another size than the last one are missing from the saved file without an error; C119_empty_refuted: an empty recording raises IndexError. Proved: a recording of figures of one size is saved completely, in order, with sizes and colours (C119_saved_partial); square figures are shown as drawn (C119_shown_partial). |
| C120 | partial | `C120_four_arguments_partial` (A0), `C120_documented_use_refuted` (A0), `C120_results_kept_partial` (A0), `C120_results_kept_refuted` (A0), `C120_plots_partial` (A0), `C120_plots_of_arguments_partial` (A0), `C120_plots_refuted` (A0) | False of the code in three ways. C120_documented_use_refuted: the three arguments of the README are all ignored, the shipped benchmark is run and replaces its former results; C120_results_kept_refuted: with a methods file that cannot be read the former results are already erased; C120_plots_refuted: the plots program reads results.txt of the working directory, so after a default run it fails anywhere but in the results directory. Proved: with four arguments the named files are used, only the named file is written, with a header and the rows in order, also up to an exception (C120_four_arguments_partial); failures in the configuration or benchmark file leave the file system alone (C120_results_kept_partial); in the results directory the plots program shows what was written (C120_plots_partial; with three arguments C120_plots_of_arguments_partial). |
| C121 | partial | `C121_same_density_partial` (A3), `C121_same_draws` (A3), `C121_nested_objects` (A3), `C121_unused_point_refuted` (A3) | False of the code for infinite densities: C121_unused_point_refuted: a point mass without weight makes the density (not the log density) of every mixture NaN at its location. Proved for components whose log densities are finite or -inf: equal densities and log densities (C121_same_density_partial) and equal joint laws of the draws (C121_same_draws) for all descriptions linked by any chain of rewritings; a mixture object used as a component is covered (C121_nested_objects). |
| C122 | partial | `C122_needed_parameters` (A0), `C122_dictionary_of_the_caller` (A0), `C122_documented_partial` (A0), `C122_documented_refuted` (A0), `C122_shipped_entries` (A0), `C122_readme_refuted` (A0), `C122_animations_refuted` (A0) | False of the code: C122_documented_refuted: for Metropolis-Hastings, multi-nested, DM-AIS, the tree sampler and HiDaisee every dictionary with documented parameters only makes the constructor raise; C122_readme_refuted and C122_animations_refuted: KeyError from the README entry and from both animations. The importance samplers overwrite n_samples_kde in the caller's dictionary (C122_dictionary_of_the_caller, which also gives the frame). Proved: the exact set of needed entries of each method (C122_needed_parameters), the documented ones suffice for LAIS and M-PMC (C122_documented_partial), all entries of def_methods.yaml build in every box (C122_shipped_entries). |
| C123 | partial | `C123_first_weight` (A3), `C123_settles_partial` (A3), `C123_converges_refuted` (A3) | False of the code: the first shell gets the weight X[0] = 1 instead of 1 - exp(-1/N). C123_first_weight: the first sample keeps at least l/(l+b) of the weight in runs of every length (l the first, b the largest likelihood); C123_converges_refuted: on constant targets that is one half, so the estimate of a non-negative function never falls below half of its value at the first sample, with runs of every length on [0, 1] whose mean square is at least 1/2 instead of 1/3. Proved: estimates settle, with an explicit exponential rate (C123_settles_partial). |
| C124 | partial | `C124_rejection` (A2), `C124_mh` (A2), `C124_nested_partial` (A2), `C124_multi_partial` (A2), `C124_nested_refuted` (A3) | Holds of rejection sampling and Metropolis-Hastings (C124_rejection, C124_mh): the average over all choices of n_samples_kde indices is the estimate with the returned weights. False of nested sampling: _update_model ignores the weights, so the average model gives every sample the same weight (C124_nested_partial; C124_multi_partial: likewise multi-nested sampling); C124_nested_refuted: a run whose first sample has the weight 0 and whose second has the weight 1, while every kernel that tells them apart sees the plain mean of the two. |
| C125 | proved | `C125_nested_bounded` (A3), `C125_multi_bounded` (A3), `C125_falls` (A3) | C125_nested_bounded, C125_multi_bounded: the bound in every reachable state; C125_falls: after n0(N, a, b, eps) samples the reported value is below eps. Asking for more samples than a few multiples of N does not make the estimate better; compare C123. |
| C126 | partial | `C126_mpmc` (A4), `C126_nested_later_partial` (A3), `C126_multi_partial` (A3), `C126_multi_refuted` (A3), `C126_mh_refuted` (A0), `C126_mh_partial` (A0), `C126_nested_refuted` (A3), `C126_nested_partial` (A3), `C126_population` (A0), `C126_rejection` (A0), `C126_hidaisee` (A0), `C126_tree_partial` (A0) | false of Metropolis-Hastings and nested sampling when the clock cuts off a search (C126_mh_refuted, C126_nested_refuted: the last refused proposal becomes a sample); C126_mh_partial and C126_nested_partial: holds in every history in which no search is cut off, also from a start of zero density; C126_population: DM and layered sampling, without condition on the clock; C126_rejection: however a call ends; C126_hidaisee: one target throughout, after every call that returned; C126_tree_partial: the first call of the tree sampler without resampling. C126_mpmc: every turn of M-PMC, whose weights are NaN when the batch misses the support. C126_nested_later_partial and C126_multi_partial: from the second sample on in every history of nested and multi-nested sampling, with any clock; C126_multi_refuted: false of the first sample of multi-nested sampling, without any cut-off, when a cluster is smaller than the minimal radius. |
| C127 | partial | `C127_support_refuted` (A3), `C127_support_partial` (A3), `C127_uniform_support` (A0) | false of the code: C127_support_refuted, the support [-20, 20] of the symmetric Pareto density leaves out more than a fifth of the mass (the mass is 1 - 1/sqrt(21)); C127_support_partial: the exact masses of the exponential, Maxwell and Laplace densities, all above 39/40 and below one; C127_uniform_support: one for the uniform density. Metrics and samplers only see the part on the support. |
| C128 | partial | `C128_rejection` (A0), `C128_dm` (A0), `C128_lais` (A0), `C128_nested` (A2), `C128_mh_refuted` (A0), `C128_mh_partial` (A0), `C128_mpmc` (A0), `C128_multi` (A2), `C128_hidaisee` (A0) | false of Metropolis-Hastings: C128_mh_refuted, when the clock runs out during a step the refused point is returned with weight one; C128_mh_partial: without such cut-offs no history gives a sample and no call returns. C128_rejection: a fresh object never returns (it goes on while the clock allows); C128_dm: a call for more samples raises ValueError and adds nothing; C128_lais, C128_nested, C128_multi, C128_mpmc: all weights are NaN. C128_hidaisee: all weights and the reported density are zero. The tree sampler is in C72_zero_runs. |
| C129 | proved | `C129_population` (A0), `C129_mpmc` (A0), `C129_nested` (A0), `C129_more_samples` (A0), `C129_less_effort` (A0) | C129_more_samples, C129_less_effort: rejection sampling (the number of points drawn in a turn depends on the samples held, so the two runs look at different points; the samples are not a prefix). C129_population, C129_mpmc: however the calls end. C129_nested: when the call for more samples returns; the time limit is the same in both calls, since it changes the searches. |
| C130 | proved | `C130_hidaisee` (A0), `C130_lais` (A0), `C130_mh` (A0), `C130_rejection` (A0), `C130_nested` (A0), `C130_multi` (A0), `C130_mpmc` (A0), `C130_dm` (A0) | C130_rejection, C130_nested, C130_multi, C130_mh: however the call ends. C130_dm, C130_mpmc, C130_hidaisee: for calls that return, where the samples of the object are all the points evaluated (HiDaisee: also those of earlier calls, which a split evaluates again). C130_lais: in every history; the points of the walks of the proposal centres are not kept by the program, so the targets have to agree on the whole sampling space. |
