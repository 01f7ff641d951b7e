# Formal model of tslearn: design

Target: the Python sources in `/repo/tslearn` at the pinned commit, read as text.
Nothing of it is run.  Model and proofs: Coq 8.16.1, `rocq/theories`.

## 1. Approach

* Models are small total Gallina functions that follow the Python functions
  branch by branch; exceptions are values (`Err e`), `while` loops take fuel and
  return an explicit out-of-fuel value that theorems exclude (or, where the real
  loop can diverge, exhibit).
* numpy arrays that a loop fills are modelled as functions `nat -> nat -> T`
  updated by a fold over the loop's index list, in the loop's order; input
  series are lists of feature lists.
* Numbers.  The dynamic-programming core is written once over a record of
  operations (`num`): add, subtract, multiply, compare, zero, infinity, sqrt.
  It is used at two instances: extended reals (exact arithmetic, `R` plus
  +infinity) and IEEE-754 binary64 (Coq's primitive floats, whose arithmetic is
  the machine's).  Theorems that need only monotonicity of rounded addition are
  proved for both; those that need exact algebra only for `R`.
* Specifications live in separate files (`Spec*.v`) and never mention model
  functions: warping paths, chains, sums over paths and so on are defined from
  scratch.
* Property theorems are in `Prop*.v`, named `C<nn>_...` after the property and
  followed by `Print Assumptions`.  Where the faithful model violates the
  property the theorem is named `..._refuted` and gives a concrete input.  The
  claim is then "partial" in `MANIFEST.json`, with the part that does hold proved
  beside it under an explicit restriction.
* Every model definition cites the lines it models; simplifications are stated
  there, and the larger ones again in section 4.

## 2. Plan per property

See `properties.jsonl` for the statements.

| id | model | proof |
|----|-------|-------|
| C01-C04, C07-C09 | row-major DP over `num`, backtracking, `dtw`, `dtw_path`, `frechet` | recurrence of the fill loop, then induction on paths (DP = optimum), generic in the order |
| C05 | mask loops | arithmetic characterisation, explicit path |
| C06 | anti-diagonal fill | fill order independence: any order that respects predecessors gives the same matrix |
| C10, C11 | `_cdist_generic`, argument plumbing of `_cdist_frechet` | index bijection; schedule = any permutation of the result slots; refutation |
| C12, C13 | `to_time_series`, `_ts_size`, validation | list lemmas, case analysis |
| C14 | `_compute_mask_generic` | refutation (raises) and positive part |
| C15, C16 | Itakura mask in exact rationals | counterexamples by computation, positive parts |
| C17-C19 | dictionary DP | DP = optimum over paths with a length index |
| C20 | subsequence DP | as C01 with free start/end |
| C21, C22 | envelope, lb_keogh over R | each query point is matched inside its window |
| C23-C26 | LCSS fill, both backtrackers (fuelled) | chains; refutations for radius 0 and for the diverging loop |
| C27-C31 | soft-DTW over R with +infinity | sums over paths, backward recursion |
| C32 | GAK DP over R | sum over paths of products |
| C33 | ctw loop with CCA oracle | refutation, invariant |
| C34 | circular correlation as FFT oracle | index arithmetic, length bound |
| C35-C39 | PAA/SAX/1d-SAX over R | Jensen / interval arguments; refutations |
| C40-C43 | dataset construction, text and cast formats | list round trips |
| C44-C47 | scalers, resampler, imputer over R | algebra |
| C48-C52 | DBA loops over R | majorise-minimise; refutations |
| C53-C55 | k-means loop over R | Lloyd monotonicity; refutations |
| C56, C57 | KernelKMeans parameter state, KShape norms | state machine; refutation |
| C58, C59 | kneighbors with argpartition oracle; metric state machine | any admissible partition; invariant over histories, refutations |
| C60 | matrix profile | list/min characterisation |
| C61, C62 | early classifier with oracle costs, generator state machine | induction over time / chunks |
| C63 | contextmanager semantics | exception monad, any body |
| C64-C66 | value trees, attribute tables | structural induction; refutations |
| C67-C69 | ARIMA differencing, order search, coefficient layout | finite differences; finite-set termination; refutations |
| C70, C71 | tensor reshape index arithmetic, shapelet sizes | refutation and positive part |
| C72 | file-system state machine with crash points | refutation |
| C73 | binary64 instance via Flocq | monotonicity of rounding |

Properties added while the model grew:

| id | model | proof |
|----|-------|-------|
| C74-C76 | callers of `_cdist_generic` | as C10; refutations |
| C77-C79 | SAX / 1d-SAX inverse transforms | breakpoints and medians as parameters with their order |
| C80-C82, C89, C90 | cross-correlation, KShape | Cauchy-Schwarz on shifted products; loop invariants; eigenvector oracle |
| C83-C88, C91, C96 | barycenters, k-means, kernel k-means, sigma_gak | as C53; histories of attempts; order statistics |
| C92-C95 | neighbours without queries, matrix profile | index bookkeeping; affine invariance |
| C97-C104 | early classifier, forecasting | induction over time; finite differences |
| C105-C111 | persistence and shapelets | value trees; histories of fits |
| C112-C116, C124 | dataset cache, conversions | file system state machine; list round trips |
| C117-C119 | soft-DTW barycenter | gradients over Coq's reals; optimiser as argument |
| C120-C123 | forecasting errors | algebra; refutations |
| C125-C127 | DBSCAN | reachability invariant of the stack, permutations |
| C128-C132 | SVM wrappers | argument plumbing, kernel matrices |
| C133-C135 | PyTorch loss | sums over paths; autograd chain rule |
| C136-C141 | silhouette score | sums by cluster, permutations |
| C142, C143 | generators | random numbers as a sequence |
| C144-C147 | feature synchronizer | interpolation lemmas |
| C148-C150 | k-means++ seeding | all random draws |
| C151-C156 | SAX neighbours, perceptrons | histories of calls |
| C157, C158 | cdist_ctw, cdist_sax | as C10; memory contents as parameter |
| C159-C162 | SoftDTW class, deprecated functions | sums over paths with a finite border; histories of calls |
| C163, C164 | soft-DTW k-means | induction on the iterations and attempts; a run whose inertia increases |
| C165, C166 | choice of the back end | words in strings; induction on nested objects |
| C167, C168 | conversions between lists, arrays and tensors | induction on nested objects; a number that float32 lacks |
| C169, C170 | early classifier: probabilities, cost, price of time | same decision times; first minimum moves left as time gets dearer |
| C171 | names and files of the cached datasets | induction on strings cut at the last dot |
| C172, C173 | readers of text and ARFF files | a file is written from a dataset and read back, by induction |
| C174, C175 | the scalers in binary64 | each operation as a rounded real operation (Flocq), monotony of rounding; sums in any order as a relation |
| C176 | LB_Keogh in binary64 | evaluation with an arbitrary order of summation; empty filters; relative error of sums in any order, squares and roots, combined with C187 and C21 |
| C177-C180 | shifts, scaling, reversal, zero distance and triangle inequality of DTW and Frechet | both as the optimum of an aggregate of path costs; half turn of a path; composition of alignments |
| C181-C183 | SVM objects through histories of calls | the attributes as a record; a successful fit overwrites everything a prediction reads; FALSE for failed fits (training series replaced before the kernel is checked) and for a kernel changed after fit |
| C184-C186 | several processes in one dataset cache | programs with single file-system actions, interleaved by an arbitrary schedule; simulation of each process alone; invariant on unfinished files; FALSE: all processes get the data |
| C187, C188, C191 | rounding error of DTW, its variants and Frechet in binary64 | a ghost value without upper exponent bound beside every float, relative error counted along a path; the minimum over paths keeps the error of one path |
| C192 | sigma_gak with numpy and with PyTorch | order statistics; points 0 and 1, distances counted |
| C193 | GAK matrices are positive semi-definite | kernels as limits of finite sums f(x)f(y), closed under sums, products and linear maps; the table as the limit of alignments with waiting |
| C194 | soft-DTW under gamma, constraints and similarities | sum over paths; log-sum-exp comparison; turning paths by half |
| C195 | GAK under similarities, reversal and sigma | same sums of products over paths |
| C196 | inertia of KernelKMeans with gak against feature-space distances | C193 at (indicator - weights) |
| C197 | KernelKMeans and nearest centers | FALSE: three unit vectors, converged fit; bound by the norms of the centers |
| C198 | LB_Keogh as the distance to a box | nearest point per coordinate; the rest follows from the extremal form |
| C199 | LCSS under similarities, reversal, eps and constraints | the table depends on the matches only; chains turned by half |
| C200 | scalers: unit, origin, scaling twice | every scope as an image under an affine map; minimum, maximum, mean and deviation of the image |
| C201, C202 | PAA, SAX and 1d-SAX under a change of unit | the scaling step of SAX is the scaler of C200; FALSE for 1d-SAX (standardised twice), slopes proved |
| C203 | resampling and imputation under a change of unit | every column operation commutes with an affine map; uniqueness of the median for negative units |
| C204, C205 | k-means under reordering, change of origin and unit | simulation of two runs of `fit` (Euclidean), the series reordered and moved, the initial centres moved (hypothesis `inits_follow`, as draws are parameters of the run), the tolerance times a²; C205 false as stated: `tol` is absolute |
| C206, C207 | samples of AutoVARIMA's stationarity test and the order it selects | kpss a parameter; invariant "the first n rows hold the values of the function" through the differences; C207 false as stated |
| C208 | shapelets_, shapelets_as_time_series_ against transform | loop invariant of the filling loop; C106 for the distances |
| C209, C210 | LearningShapelets through JSON and pickle | decimal printing of keys is inverted by `int`; entries followed through the file; C210 FALSE: numpy integers in `_X_fit_dims` |
| C211, C212 | subsequence DTW and limited warping length under changes of their arguments | least DTW over windows (C20) with C177 and C179; optimum over short paths, turned and swapped |
| C213, C214 | DTW barycenter averaging under reordering, change of origin and unit; fixed tolerance | simulation of two runs: scaled accumulated costs give the same path, weighted means of converted observations, loop invariant; refutation from the simulation |
| C215, C216 | TimeSeriesKMeans (DTW) in another order, origin, sense of the axis; in another unit | two runs side by side through every loop, using C213 for the centres; a series whose inner averaging stops early in the smaller unit |
| C217 | subsequence DTW of double tensors with PyTorch | binary32 satisfies the laws of `num_laws`, so C20 applies to the rounded sums; error bound by induction over a path; two costs that store as one float32 |
| C218, C219 | DTW and LCSS with a callable metric on double tensors, PyTorch | the laws of binary32 with C09 and C26; error bound of C217; one pair of points whose distance is rounded to `eps` |
| C220 | nearest neighbours under a reordering and a similarity | the k least distances of a row are determined (pigeonhole); C177 for the rows |
| C221 | KernelKMeans under a reordering | two runs side by side; masked sums are permutations of each other |
| C222, C223 | DBSCAN with coarser parameters, and in another unit | monotonicity of densities and links in the characterisation of C125; equal neighbourhoods give equal runs; C177 for the distances; FALSE: two stars sharing a border series |
| C224 | normalised cross-correlation in other units | linearity of the discrete Fourier transform; FALSE: series of small norm |
| C225, C226 | forecasting errors in other units | closed forms of C120 and C122; FALSE: averaging before dividing mixes the units of the features |
| C227 | matrix profile of a reversed and of a longer series | the characterisation of C60 and uniqueness of the least value; windows under reversal and extension |
| C228 | silhouette score in another unit | closed form of C136 and the similarity theorems of DTW and soft-DTW (C177, C194) |
| C229 | `Backend.all` over axes with PyTorch | tensors as index functions; FALSE: two or more axes raise TypeError |
| C230 | `frechet_path_from_metric` | the table of C07; tables of an increasing function of the distances are twins cell by cell |
| C231 | VARIMA `_loss`, `_varma_next`, start values | induction on the length: the window of residuals holds the last q errors; start values split by blocks |
| C232 | `check_equal_size`, `check_dataset`, `check_dims` | the sizes survive `to_time_series_dataset`; case analysis of the flags |
| C233 | `_get_metric_params` and the calls of the metric in KMeans, the neighbour searches and DBSCAN (ParamsModel.v) | Python argument binding as a partial function of names; membership lemmas for deleting, setting and filtering entries |
| C234 | constructor and lists of `UCR_UEA_datasets`, `in_file_string_replace` (SummaryModel.v) | an occurrence after replacing was there before and was not hit, because old, new and the other word agree in no relative position |
| C235 | `silhouette_score`: `metric_params` and `kwds` (SilParamsModel.v) | updating a dictionary entry by entry is right-biased union |
| C189, C190 | `cache_all`, `baseline_accuracy` | a call only reads and writes the directory of its dataset; dictionaries as association lists; FALSE: scores without the server |

Concurrency: within a process the only parallelism is `joblib` over independent pair
computations; it is modelled as an arbitrary evaluation order of slots.  Several
processes that share a dataset cache are interleaved in ConcModel (C184-C186).

## 3. Trusted base

1. Coq's kernel (8.16.1) and its virtual machine, including primitive binary64
   floats (`Coq.Floats`), which the instance `Fnum` uses.
2. The axioms that `Print Assumptions` lists for each theorem.  `ASSUMPTIONS.md`
   gives the list for every theorem of the manifest; it is generated by
   `tools/assumptions.py` from the output of the build.  All of them belong to the
   standard library; section 5 says what each group is for.  The development adds
   none, switches off no check, and leaves nothing admitted.
3. The reading of the Python code: that each definition follows the cited lines.
   The code is never run; numpy, numba, scipy, scikit-learn, torch, keras, h5py and
   pandas are taken by their documented behaviour as listed in section 4.
4. The English statements in `properties.jsonl` agree with the theorems; the notes
   in `MANIFEST.json` say where a theorem covers less.

## 4. What is modelled

"Exact" means real or extended-real arithmetic instead of binary64.  Plotting,
printing, warnings, docstrings, estimator tags and argument-type conversions
(`dtype`) are nowhere modelled.  joblib is an arbitrary order of the tasks.

| code in `tslearn/` | model | not modelled, or taken as given |
|---|---|---|
| metrics/_dtw.py, _frechet.py, utils.py | DtwModel, Dataset (both number systems) | numba compilation; sklearn's `pairwise_distances` for a named metric other than the squared Euclidean one |
| metrics/_masks.py | Masks, exact rationals for the Itakura slopes | binary64 rounding of the slopes |
| metrics/dtw_variants.py | VariantModel (limited length, subsequence, LCSS), SubTorchModel (subsequence with PyTorch: a float32 table), MetricTorchModel (DTW and LCSS with a metric, PyTorch), LbModel (LB_Keogh, exact), FloatLbModel (the same in binary64) | numpy with callable metrics of `lcss_path_from_metric` |
| metrics/_soft_dtw.py, soft_dtw_fast.py | SoftModel, exact | fastmath reordering; overflow of exp |
| metrics/softdtw_variants.py | SoftClassModel, exact; border of the table as parameter | gradients with a finite border; sklearn's `euclidean_distances` beyond its input checks |
| metrics/soft_dtw_loss_pytorch.py | TorchLossModel, exact | float32 rounding; torch's version counters; autograd is the chain rule |
| metrics/_gak.py | GakModel, KernelModel (`sigma_gak`), SigmaTorchModel (the same with PyTorch), exact | random choice: all index draws; PyTorch's float32 square root of the length is exact |
| metrics/ctw.py | CtwModel, CdistMoreModel | scikit-learn's CCA (arbitrary functions) |
| metrics/cycc.py | CyccModel, exact | numpy's FFT is the discrete Fourier transform |
| metrics/sax.py, cysax.py, piecewise | PaaModel, CdistMoreModel, exact | conversion of NaN to an integer and out-of-bounds reads (memory as parameter); normal quantiles as ordered parameters |
| metrics/performance.py | PerfModel, exact | sklearn's error functions by documented meaning |
| utils/utils.py | Series, Dataset, TextModel, ReaderModel, parts in CastModel | number formatting and reading correctly rounded, sign of zero not represented; object arrays; numpy's `loadtxt` and scipy's `loadarff` by documented meaning |
| utils/cast.py | CastModel | pandas, cesium, seglearn objects by documented meaning; no rows means no columns |
| barycenters/ | BaryModel, SoftBaryModel, exact | scipy's optimiser (argument); `interp1d` in `_init_avg`; threads |
| clustering/kmeans.py | ClusterModel, KInitModel, SoftKmeansModel, KernelModel, exact | scipy's optimiser and joblib's order for metric "softdtw" are arguments; sklearn's own seeding for "euclidean"; kernels other than a given matrix; zero weight sums; random numbers are all possible draws |
| clustering/kshape.py | KshapeModel, exact | `eigh` (any unit eigenvector of the largest eigenvalue) |
| clustering/dbscan.py, utils.py | DbscanModel, SilhouetteModel; ParamsModel, SilParamsModel (`metric_params`, also of kmeans.py and neighbors.py) | sklearn's `dbscan_inner`, `radius_neighbors` and silhouette functions modelled from their source |
| neighbors/ | NeighModel, SaxNeighModel | argpartition and argsort as parameters with their contract; sklearn's voting; float symbols (numba typing error) |
| svm/ | SvmModel, SvmStateModel (attributes through calls) | SVC and SVR as parameters; callable kernels |
| neural_network/ | MlpModel | training as a parameter, sklearn's input checks from its source; solver "lbfgs" |
| shapelets/ | ShapeletModel, PersistModel, PersistLsModel | training; keras operations and masks by documented meaning, exact |
| early_classification/ | EarlyModel, EarlyCostModel, exact | base classifiers, k-means and splitting as parameters; empty clusters |
| forecasting/ | ArimaModel, ArimaStatModel, exact | least squares, Nelder-Mead, KPSS test as parameters; set iteration order as parameter |
| preprocessing/ | PreModel, SyncModel, exact; FloatScalerModel in binary64 | datetime to float exact; `numpy.interp` with NaN coordinates as parameter; negative reference index |
| matrix_profile/ | MpModel, exact | stumpy and gpu implementations |
| bases/, hdftools/ | PersistModel | h5py 3, json and numpy array construction by documented behaviour; `raise_type_fail=False` |
| datasets/ucr_uea.py, datasets.py | CacheModel, ConcModel (several processes), BaselineModel (`cache_all`, `baseline_accuracy`), SummaryModel (lists of datasets) | network as an oracle; no symbolic links, permissions or full disks; parsers as parameters; splitting of CSV lines into fields |
| generators/ | GeneratorModel, exact | numpy's generator is a sequence of numbers read in C order |
| backend/backend.py | BackendModel, AllModel (`PyTorchBackend.all`) | the functions of the two back ends other than `array`, `tolist` and `all`; integer and complex data; `grad_fn` and devices in printed tensors |
| datasets/cached.py | CachedModel | the file system: a list of named files, each readable |

## 5. Axioms

`ASSUMPTIONS.md` lists, per theorem, one of these groups.

* none: the theorem is closed under the global context.
* reals: `ClassicalDedekindReals.sig_forall_dec`, `sig_not_dec` and
  `FunctionalExtensionality.functional_extensionality_dep`, on which the standard
  library builds the real numbers.
* classic: `Classical_Prop.classic`, used by Flocq and by parts of the real
  analysis library.
* floats: the primitive types and operations `PrimFloat` and `PrimInt63` with the
  specification axioms `FloatAxioms`, for the binary64 instance.
* machine integers: the specification axioms of `Uint63` (`of_to_Z`, `eqb_correct`,
  `eqb_refl`, and `add_spec`, `sub_spec`, `lsl_spec`, `lsr_spec`, `lor_spec`, `leb_spec`,
  `ltb_spec`), used by `C175_integers` alone, which converts counts to
  binary64.

## 6. Wrong programs

`seeded/LOG.jsonl` records edits of the models that imitate realistic bugs and which
theorems then fail; `seeded/README.md` explains the method and how to read it.
Eighteen theorems were added or strengthened because an edit had survived.
