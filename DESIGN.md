# Formal model of qutech/qtune: design

Everything lives in `rocq/theories` (Coq 8.16.1, `-Q theories Verif`).  Each
area has four kinds of files:

* `XModel.v`  – executable/shallow Gallina model, function by function, every
  definition cites file and lines in `/repo`; no proofs;
* `XSpec.v`   – the vocabulary in which the properties are stated (kept small,
  independent of the model's helpers);
* `XProofs.v` – lemmas (larger areas have several such files);
* `XProps.v`  – the property theorems, the non-vacuity `Example`s beside them
  and `Print Assumptions` for each theorem.

`properties.jsonl` lists the properties, `MANIFEST.json` maps them to theorems,
`seeded/LOG.jsonl` records wrong programs that were tried and the theorems that
failed on them.

## Conventions of the model

* Python exceptions are values: `res A := Ok a | Raise e`.  Effects that have
  happened before an exception stay (state is returned next to the `res`).
* Floats are idealised: `num := NaN | MInf | PInf | Fin r` with `r : R` (exact
  reals, no rounding, no signed zero), IEEE rules for NaN and infinities.
* `pandas.Series` with string labels are association lists in index order.
  The pandas semantics assumed are those of the version range the code was
  written for (0.2x: `Series.append` exists).
* Matrices (Jacobian, covariance, finite differences) are mathcomp matrices
  over an arbitrary `realFieldType`, all dimensions at once.
* Things outside the modelled code (the experiment, user-written evaluators,
  tuners, solvers, the scheduler, the allocator) are universally quantified
  arguments, never axioms.
* A theorem named `…_refuted` exhibits a concrete state on which the faithful
  model violates the obvious claim; the property then states both sides.

There are three layers that do not depend on each other:

* layer A, over the reals of the standard library: `PyBase`, `Target`,
  `Autotuner`, `Tuner`, `Solver`, `Newton`, `Estimator`, `NelderMead`, `Matlab`,
  `Util`, `Evaluator`, `History`, `Reload`, `Compose` (with `KernelR`), `Numerics`, `Race`,
  `Fit`, `FitStart`, `PassThru`, `Sim`, `Ready`;
* layer B, mathcomp matrices: `LinAlg` (with `FDProofs`, `LoopProofs`),
  `Kalman`, `KalmanReload`, `KalmanLoop`, `KalmanFit`, `KalmanGlobal`, `KalmanLimited`, `KalmanAsk`, `KalmanFade`, `KalmanTuned`, `KalmanEach`, `MinGrad`, `Chord`, `Limited`, `Damped` (with
  `FieldTac`, the tactics `ring` and `field` for these fields);
* layer C, discrete and computable: `Storage`, `Writer`, `Mat2py`, `Gui`, `Columns`, `Serial`, `Plot`, `Alias`, `Engine`, `Tune`, `Snapshot`, `Library`, `Organizer`, `Log`, `Windows`, `Registry`, `Figure`, `RawWindow`, `Reeval`, `View`.

The `Compose` files put the models of layer A together: `Autotuner.iterate` on
a hierarchy of `SubsetTuner`s with `NewtonSolver`s and finite difference
estimators, on a device whose parameters are affine in the voltages.  The three
numerical routines are arguments there, with hypotheses that say what they
deliver in exact arithmetic (`ComposeSpec.v`); `ComposeNumerics.v` proves that
such routines exist.  The `Numerics` files model the helpers of `util.py` on
arrays and prove that they deliver this if `numpy.linalg.inv`, sympy's
`nullspace` and `numpy.linalg.lstsq` are right in exact arithmetic (C98); only
these library routines are assumed.  Layer B proves properties of the same
algorithms on matrices (C26 to C30) and does not depend on layer A.

## What is modelled

| source | modelled | not modelled |
|--------|----------|--------------|
| `autotuner.py` | `iterate`, `restart`, `change_targets`, `ready_to_tune`, `tuned_parameters`, `is_tuning_complete`, `save_current_status`, constructor (`Construct`) and `to_hdf5` as far as they keep state; `iterate` interleaved with `restart`, `change_targets` and voltages set by hand (`Race`); `all_estimators_ready` (`Ready`); `load_auto_tuner` (`Registry`) | logging texts |
| `parameter_tuner.py` | all of `ParameterTuner`, `SubsetTuner`, `SensingDotTuner` incl. constructors and `to_hdf5` | `state` property, logger |
| `solver.py` | `make_target`, target setter, rescaling, `NewtonSolver`, `NelderMeadSolver`, `ForwardingSolver` | `rcond` cut-off of `lstsq` (exact arithmetic has none), `__repr__` |
| `gradient.py` | the three estimators incl. setters, constructors, reload | rounding |
| `kalman_gradient.py` | `update`, `grad`, `cov`, matrix H, constructor, `to_hdf5`, `sugg_diff_position` (`MinGrad`); filterpy's `predict`/`update` from their documented equations | rounding |
| `storage.py` | `to_hdf5`/`from_hdf5` on object graphs, the asynchronous writer with all interleavings, its snapshots (`Snapshot`); registry of classes, `#version` (`Registry`) | the byte format of HDF5, pandas/numpy conversions inside a dataset, `D:\temp.txt` on a failed construction |
| `history.py` | `append_autotuner` and its extraction functions; column names and the getters with regular expressions (`Columns`); which evaluator data, parameters and gradients can be plotted (`Plot`); `plot_tuning` (`Figure`); references to objects of the evaluators (`Alias`); loading files and directories (`Library`); `read_files` (`Registry`) | colours and legends of plots |
| `evaluator.py` | control flow of the evaluators, averaging, lead transition with crash points, sensing dot choice of the flank; fit functions, weights and use of the fits (`Fit`); constructors and `to_hdf5` (`Serial`); starting values, bounds and repetition of the fits from stored data (`FitStart`) | optimiser of the fits (an argument that returns or raises), plotting |
| `basic_dqd.py` | `TestExperiment`; `load_simulation`, `transition_simulation` without noise; options of `detune_simulation` (`Sim`); the two sensing dot simulations (`Sensor`) | noise terms |
| `util.py` | filters, transition finders, gradient from points (also `MinGrad`), orthogonal vector; when the two plot functions raise (`Plot`); time stamps (`Library`); version (`Registry`) | appearance of plots |
| `mat2py.py` | index translation; struct and function views on a workspace (`View`): the evaluator of texts in `ViewModel.v` is an assumption about MATLAB | items of cell arrays, columns of tables, printing |
| `MATLAB/+qtune`, `sm.py`, `sm_tune_qqd.py` | voltage guards, range checks, `at_diff`, order of read and write; constructors and `to_hdf5` of the evaluators (`Serial`); `to_matlab` and registry of engines (`Engine`); calls of measurement functions (`Tune`); `SMQQDPassThru` (`PassThru`); `reevaluate_data_with_matlab` (`Reeval`) | scans, special measure drivers, search path |
| `gui.py` | worker thread, buttons, run numbers, raw data window (`Plot`, `RawWindow`), parameter and gradient windows (`Figure`), live plot and its choices (`Organizer`), messages in the window (`Log`), windows opened from it (`Windows`) | other widgets, appearance of plots |

Simplifications are also stated at each definition.

## Trusted base

* Coq's kernel, version 8.16.1.
* The axioms listed by `Print Assumptions` for each theorem, see the appendix.
  Only four occur, all from the standard library.  Three come from its
  construction of the reals: `ClassicalDedekindReals.sig_forall_dec`,
  `ClassicalDedekindReals.sig_not_dec`,
  `FunctionalExtensionality.functional_extensionality_dep`.  The theorems about
  continuity, exponential curves and smooth steps (`FitProps`, `SimProps`, `SensorProps`) also use
  `Classical_Prop.classic` through the library's analysis.  A tool that lists
  the opaque parameters of sealed modules will in addition show names such as
  `mathcomp.ssreflect.finset.Imset.imset` or
  `Coq.Reals.Rdefinitions.RbaseSymbolsImpl.R`: these are sealed definitions of
  the libraries with a body behind the seal, and `Print Assumptions` says
  "Closed under the global context" for theorems that use only them.
* The reading of the Python and MATLAB sources in `/repo` at the pinned commit,
  as cited at each model definition.  The code was not executed.
* The semantics assumed for pandas, numpy, sympy, h5py, filterpy, Qt and MATLAB
  operations, stated at the definitions that model them.
* The idealisations above, exact arithmetic first of all.


## Deviations of the code from its obvious claims

The model follows the code, so these are theorems (see the property for the
exact statement):

* `restart`/`change_targets` keep `_current_tuner_status`, so a stale result may
  be acted on (C06); targets of earlier tuners stay changed when a later setter
  fails (C50).
* queued steps towards a fixed point can block a tuner forever (C15); NaN from
  an expensive evaluation is not noticed by `SensingDotTuner` (C17).
* setters intersect labels with values, so positions are never updated (C35).
* the self-initialising Kalman estimator raises when its first phase is complete
  (C36); symmetric finite differences fail in the loop (C29); a finite-difference
  estimator never refreshes (C53) and never recovers (C54); a parameter without
  desired value blocks the Newton solver (C52).
* Nelder-Mead: no return to reflection (C25), coefficients differ from the
  textbook (C60), collapse after a failed expansion (C61), NaN points are optimal
  (C64), cannot be used in a tuner (C65), saved state is rejected (C42).
* storage: temporaries with reused ids corrupt the file (C38), self references
  cannot be loaded (C67), keys with a slash are paths (C68); the writer can
  dead-lock in `join` (C40) and lose tasks (C70).
* reload: `SubsetTuner` with an irrelevant row (C41), finite-difference estimator
  with a measurement, `SensingDotTuner` history, growing storage path (C42).
* history: C44, C82, C83, C84; the getters search without anchor, so a parameter
  also gets the gradients of parameters that end with its name, and
  `get_gradient_covariances` never returns a number (C105).
* MATLAB side: NaN passes the guards (C73), negative indices and slices with a
  start (C48), other guards (C49, C74).
* evaluators: C45, C75, C77, C78, C80, C81.
* the loop as a whole: a tuner that is already tuned but has no gradient yet
  stores the same point again when a later tuner moves its gates; with as many
  points as gates the gradient is degenerate and `iterate` raises (C96, C97).
* `make_target` drops parameters that are missing in its first Series, and a
  Series of rescaling factors leaves NaN for the parameters it does not name
  (C99).
* worker and window share the Autotuner without a lock: a reload during an
  iteration can end in "tuning complete" without an evaluation, can be undone by
  the next iteration, or lets `iterate` fail (C100).
* fits: a signal without decay gives a finite load time (C101); the lead curve
  jumps because the wrapped piece is shifted by the last point of the axis and
  not by the period, and its second version uses the rise time to normalise the
  fall (C102); the weights of the second fits are not at the transition and do
  not depend on the fitted begin times (C103); the sign of the tunnel coupling
  is arbitrary (C104).
* evaluators lose the sampling rate, the transition width and the flank when they
  are saved and loaded; a `QQDMeasurement` cannot be saved (C106).
* starting values: the default arguments of `LeadTunnelTimeByLeadScan` need 322
  points, and the straight line of the fall is read off at the right place for one
  sampling rate only (C108); `NewLoadTime` with `initial_curvature` outside 2..300
  never evaluates, and a line scan of one or two points is a TypeError (C109); the
  lead scans cannot be evaluated again from their stored data, the load time only
  with axis and values exchanged (C110).
* plots: unknown names are removed from a list while it is iterated over (C111);
  with one measurement the raw data window hands a single Axes to plot functions
  that expect a list (C112); the lead scan is drawn with the curve of the other
  version, its parameters have no units, and gradients of one parameter cannot be
  drawn (C113).
* a live history: rows refer to objects of the evaluators; starting values of the
  load time, intermediate values of the tunnel coupling and centres of scans are
  changed in place, and rows of an `AveragingEvaluator` show the newest state of
  the averaged evaluator (C114).
* `to_matlab` turns a tuple into a generator over unconverted objects instead of
  refusing it or converting it; texts, bools and int64 arrays are refused (C115);
* an engine started by the process is registered under its process id and cannot
  be found by its name; the second connection MATLAB forbids is attempted (C116);
* `SMQQDPassThru.evaluate` calls `get_last_file_name`, which no experiment has; a
  failure in the first eight evaluations leaves NaN errors for ever; which rule
  deals the values depends on the last measurement only; a line before a lead scan
  shifts the residuals (C117);
* the measurements an `SMTuneQQD` offers have no option `index` and end in a
  KeyError (C118).
* a writer with a worker process (the default of `AsynchronousHDF5Writer`; the
  autotuner asks for a thread) stores the experiment as a plain number, because
  the number loses its identity in the queue (C119);
* the upper limit of the position in `QQDResp` defaults to minus infinity (C120);
* an autotuner that is loaded and continued saves in a new directory below its
  library, because `append_time_to_path` is not stored; from then on
  `History(library)` raises OSError (C122);
* `History(path)` for a missing path raises the warning that says an empty history
  is made (C122);
* voltages given to the constructor of `Autotuner` are never set if the first
  tuner was made with last voltages that have none of their gates: a line that
  prepares a log message raises KeyError in every call of `iterate` (C123);
* before the rise `func_lead_times_v2` does not continue the fall of the period
  before but a point half of (begin of the fall + 2 microseconds) later (C102);
* the live plot draws the last parameter in the colour of the first gate: `zip`
  takes one pen too many at the end of every group (C124);
* if one entry of the live plot cannot be read, the entries after it keep their
  former data without sign of it in the plot (C124);
* choosing for a parameter what it is set to already does not reset gradients
  that were changed one by one (C124);
* after `logging.basicConfig` the default window cannot be set up: the loop
  that removes handlers asks `hasHandlers`, which counts inherited ones, and ends
  in StopIteration when there is no own handler left (C125);
* a second window takes the messages of the first one, and shows NOTSET as its
  level whatever the level is; NOTSET shows fewer messages than DEBUG (C125);
* each reload window keeps the autotuner of the moment it was opened: after a
  state was reloaded in one window, Reload Voltages in another one sets the
  voltages and restarts an autotuner that is no longer at work (C126);
* a state reloaded during an iteration makes the worker append the new
  autotuner to the history instead of the iterated one (C126);
* `detune_simulation` gives a float as number of points, which numpy refuses
  since 1.18 (C127);
* the transition finder places a step near the end of a scan several samples
  away from it (C127);
* the simulated experiment changes the series of initial voltages its caller
  gave (C127);
* with evaluations reported as exact (variance 0, as a single repetition is,
  C78) the Kalman estimators raise LinAlgError as soon as a step depends on
  the earlier ones; a Newton step that hits the target does (C128);
* `sugg_diff_position` takes one part of an eigenvector for the whole; for
  correlated gradients it is not a direction of largest variance (C129);
* reading `all_estimators_ready` writes to the estimator: two equal requests
  per reading; a parameter without desired value can keep it `False` although
  the solver never asks (C130);
* a file with objects of `sm_tune_qqd` or `sm` is loaded with `None` in their
  place unless the module was imported before; `kalman_heuristics` cannot be
  imported; without gitpython the version names the commit of the repository
  at the current directory; the test `'#version' not in root` looks at links,
  so each save overwrites the version; `read_files` returns the result of
  `list.sort`, which is `None` (C131);
* a NewtonSolver with finite differences never renews its Jacobian; on the
  square function it can alternate between two voltages forever although the
  target exists (C132);
* the gradient window stays blank when one parameter of the history has no
  gradient, for example with a sensing dot tuner; for a single parameter its
  first refresh fails and the later ones work; `plot_tuning` can never plot the
  gradient of a single parameter; its documented mode `with_par_variences` is
  not the one tested (C133);
* default parameters of the lead time evaluators have no entry in
  `parameter_information`, so the parameter window stays blank (C133);
* with more than one step per evaluation and a first displacement of exactly
  K step size limits (say 2 with limit 1) a tuner that learns its gradients
  never evaluates again (C134);
* an open raw data window has no buttons for evaluators that turn up later, and
  its pictures pile up in one place (C137);
* `reevaluate_data_with_matlab` reads attributes of dictionaries and always
  fails (C138);
* a call through a function view overwrites the MATLAB variable `temp`, and a
  view of `temp` given after a Python argument becomes that argument; struct
  views accept negative indices but cannot be read then (C140);
* process noise together with a maximum covariance below its floor blocks the
  tuner: after the first request the estimators ask in every round, no Newton
  step is made, and the voltages do not depend on the device; nothing in the
  code checks the two settings against each other (C143);
* with tuned parameters and different step widths per gate the requests of the
  Kalman estimators need not end: the voltages move in a straight line for ever
  and take the tuned parameters with them (C144);
* a gate with infinite maximum covariance, without correlations and with first
  gradients 0 is never moved, although it stays uncertain (C145);
* two tuners that disturb each other more than themselves correct each other
  for ever, and nothing notices it (C146);
* finite difference estimators keep their first gradient; a gradient with the
  wrong sign or too small by a factor 2 makes a tuner run for ever (C147);
* a noise as large as the tolerance can keep a tuner from ending; there is no
  limit on the number of steps (C148);
* every step of tuner j costs j + 3 calls of iterate, because all lower tuners
  are evaluated again even if the step does not concern them (C149);
* a step whose evaluation is omitted costs as many calls of iterate as one with
  an evaluation, so omitting evaluations saves measurements of the tuner itself
  but none of the lower tuners (C150);
* measuring the gradient of tuner number j costs j+3 calls of iterate per gate,
  because all lower tuners are evaluated again after each point (C151);
* repeated choices of the flank of the simulated sensing dot run away when they
  start above 4.92 mV, and arrive at -1.41 mV from any distance below (C152);
* the simulated two-dimensional scan covers 5 mV whatever the measurement asks
  for, so with the default range of 10 mV chosen offsets are doubled (C152);
* `LeadTransition` compares points 0.4 mV apart instead of the transition width of
  0.2 mV: the number of points is computed as if the scan covered its range once,
  but it extends it to both sides (C77);

## Appendix: what `Print Assumptions` lists

`-`: closed under the global context.  D: `ClassicalDedekindReals.sig_forall_dec`,
N: `ClassicalDedekindReals.sig_not_dec`, F: `FunctionalExtensionality.functional_extensionality_dep`,
C: `Classical_Prop.classic`.

| file | theorem | property | axioms |
|---|---|---|---|
| AliasProps.v | `live_rows` | C114 | - |
| AliasProps.v | `average_rows` | C114 | - |
| AliasProps.v | `live_start_refuted` | C114 | - |
| AutotunerProps.v | `no_nan_to_hardware` | C01 | - |
| AutotunerProps.v | `nan_voltage_refused` | C01 | - |
| AutotunerProps.v | `nan_voltage_runtime_error` | C01, C17 | - |
| AutotunerProps.v | `one_action_per_iterate` | C02, C07 | - |
| AutotunerProps.v | `exception_safety` | C07 | - |
| AutotunerProps.v | `iterate_when_complete` | C02 | - |
| AutotunerProps.v | `complete_means_all_tuned` | C03 | - |
| AutotunerProps.v | `bottom_up_evaluation` | C04 | - |
| AutotunerProps.v | `voltages_from_untuned_tuner` | C05 | - |
| AutotunerProps.v | `tuned_parameters_reported` | C05 | - |
| AutotunerProps.v | `restart_keeps_pending_status` | C06 | - |
| AutotunerProps.v | `change_targets_keeps_pending_status` | C06 | - |
| AutotunerProps.v | `voltages_origin_with_resets` | C06 | - |
| AutotunerProps.v | `saves_are_final_states` | C08 | - |
| AutotunerProps.v | `reload_restores_state` | C08, C42 | - |
| AutotunerProps.v | `reload_repeats_same_action` | C08 | - |
| AutotunerProps.v | `reload_bisimulation` | C08 | - |
| AutotunerProps.v | `crash_between_set_and_save` | C08 | - |
| AutotunerProps.v | `action_only_if_names_coherent` | C51 | - |
| AutotunerProps.v | `coherent_iterate_succeeds` | C51 | - |
| AutotunerProps.v | `restart_forces_evaluation_refuted` | C06 | D |
| AutotunerProps.v | `failed_change_targets_keeps_position_refuted` | C03 | D |
| ChordProps.v | `chord_jacobian_forever` | C132 | - |
| ChordProps.v | `chord_converges_with_noise` | C132 | - |
| ChordProps.v | `chord_cycle_refuted` | C132 | - |
| ColumnsProps.v | `column_names_distinct` | C105 | - |
| ColumnsProps.v | `get_gradients_exact` | C105 | - |
| ColumnsProps.v | `get_gradients_right` | C105 | - |
| ColumnsProps.v | `get_gradients_refuted` | C105 | - |
| ColumnsProps.v | `get_gradient_variances_exact` | C105 | - |
| ColumnsProps.v | `get_gradient_covariances_refuted` | C105 | - |
| ComposeCoupledProps.v | `coupled_pair_completes` | C146 | DNF |
| ComposeCoupledProps.v | `coupled_pair_rate` | C146 | DNF |
| ComposeCoupledProps.v | `coupled_pair_runs_forever` | C146 | DNF |
| ComposeCurvedProps.v | `curved_tuner_completes` | C147 | DNF |
| ComposeCurvedProps.v | `misled_tuner_runs_forever` | C147 | DNF |
| ComposeCurvedProps.v | `curved_tuner_learns` | C147 | DNF |
| ComposeCurvedProps.v | `steady_device_is_tuned` | C147 | DNF |
| ComposeLimitedProps.v | `limited_tuner_reaches_target` | C107 | DNF |
| ComposeLimitedProps.v | `hierarchy_with_limits_completes` | C107 | DNF |
| ComposeNoisyProps.v | `noisy_tuner_completes` | C148 | DNF |
| ComposeNoisyProps.v | `unreached_tuner_runs_forever` | C148 | DNF |
| ComposePaceProps.v | `paced_tower_rate` | C150 | DNF |
| ComposePaceProps.v | `paced_tower_completes` | C150 | DNF |
| ComposeProps.v | `first_tuner_reaches_target` | C95 | DNF |
| ComposeProps.v | `hierarchy_completes_or_fails` | C96 | DNF |
| ComposeProps.v | `hierarchy_with_gradients_completes` | C96 | DNF |
| ComposeProps.v | `tuned_tuner_fails_again` | C97 | DNF |
| ComposeStudyProps.v | `studied_tower_completes` | C151 | DNF |
| ComposeStudyProps.v | `studied_tower_rate` | C151 | DNF |
| ComposeTowerProps.v | `curved_tower_completes` | C149 | DNF |
| ComposeTowerProps.v | `curved_tower_rate` | C149 | DNF |
| ConstructProps.v | `pending_voltages_set` | C123 | DNF |
| ConstructProps.v | `pending_voltages_blocked` | C123 | DNF |
| ConstructProps.v | `constructor_changes_no_run` | C153 | DNF |
| ConstructProps.v | `constructed_tower_completes` | C153 | DNF |
| DampedProps.v | `limited_converges_with_noise` | C135 | - |
| DampedProps.v | `limited_cures_cycle` | C135 | - |
| EngineProps.v | `array_transfer` | C115 | - |
| EngineProps.v | `transfer_values` | C115 | - |
| EngineProps.v | `transfer_refused` | C115 | - |
| EngineProps.v | `tuple_refuted` | C115 | - |
| EngineProps.v | `connect_once` | C116 | - |
| EngineProps.v | `connect_again` | C116 | - |
| EngineProps.v | `connect_started_refuted` | C116 | - |
| EvaluatorProps.v | `lead_restores` | C45 | DF |
| EvaluatorProps.v | `lead_crash` | C45 | DF |
| EvaluatorProps.v | `lead_values` | C77 | DF |
| EvaluatorProps.v | `lead_returns` | C77 | DF |
| EvaluatorProps.v | `lead_labels_refuted` | C77 | DF |
| EvaluatorProps.v | `lead_window_refuted` | C77 | DF |
| EvaluatorProps.v | `averaging_result` | C46 | DF |
| EvaluatorProps.v | `averaging_single_refuted` | C78 | DF |
| EvaluatorProps.v | `averaging_raises` | C46, C78 | DF |
| EvaluatorProps.v | `nanmean_nan` | C46 | DF |
| EvaluatorProps.v | `failed_fit` | C79 | DF |
| EvaluatorProps.v | `good_fit` | C79 | DF |
| EvaluatorProps.v | `sensing_1d_refuted` | C80 | - |
| EvaluatorProps.v | `sensing_2d_flank` | C80 | DF |
| EvaluatorProps.v | `sensing_2d_refuted` | C80 | DF |
| EvaluatorProps.v | `sensing_1d_flank` | C80 | DF |
| EvaluatorProps.v | `resp_default_refuted` | C81 | DF |
| EvaluatorProps.v | `resp_window` | C81 | DF |
| EvaluatorProps.v | `line_value_result` | C81 | DF |
| FigureProps.v | `parameter_window_refresh` | C133 | - |
| FigureProps.v | `gradient_window_refresh` | C133 | - |
| FigureProps.v | `gradient_window_second_time` | C133 | - |
| FigureProps.v | `gradient_window_blank_refuted` | C133 | - |
| FigureProps.v | `plot_tuning_exact` | C133 | - |
| FigureProps.v | `plot_tuning_refuted` | C133 | - |
| FigureProps.v | `labels_refuted` | C133 | - |
| FigureProps.v | `window_after_failure` | C133 | - |
| FigureProps.v | `plot_tuning_open` | C133 | - |
| FigureProps.v | `labels_consistent` | C133 | - |
| FitProps.v | `load_time_exact` | C101 | DNCF |
| FitProps.v | `load_time_bounded` | C101 | DNF |
| FitProps.v | `load_time_retry` | C101 | DNF |
| FitProps.v | `load_time_flat_refuted` | C101 | DNCF |
| FitProps.v | `load_simulation_exact` | C101 | DNCF |
| FitProps.v | `lead_v1_levels` | C102 | DNCF |
| FitProps.v | `lead_v1_continuous` | C102 | DNCF |
| FitProps.v | `lead_v1_wrap_refuted` | C102 | DNCF |
| FitProps.v | `lead_v2_levels` | C102 | DNCF |
| FitProps.v | `lead_v2_wrap_refuted` | C102 | DNCF |
| FitProps.v | `tc_weights` | C103 | DF |
| FitProps.v | `tc_weights_edge_refuted` | C103 | DF |
| FitProps.v | `tc_position_shift` | C103 | DF |
| FitProps.v | `lead_weights_refuted` | C103 | DF |
| FitProps.v | `tc_two_fits` | C104 | DNF |
| FitProps.v | `tc_sign_refuted` | C104 | DNF |
| FitStartProps.v | `scan_start_default` | C108 | DF |
| FitStartProps.v | `scan_needs_points` | C108 | DF |
| FitStartProps.v | `scan_rate_refuted` | C108 | DF |
| FitStartProps.v | `prefit_start` | C108 | DF |
| FitStartProps.v | `load_start` | C109 | DF |
| FitStartProps.v | `tc_guess_exact` | C109 | DF |
| FitStartProps.v | `tc_guess_few_refuted` | C109 | DF |
| FitStartProps.v | `lead_recalculation_refuted` | C110 | D |
| FitStartProps.v | `lead_data` | C110 | D |
| FitStartProps.v | `load_recalculation_refuted` | C110 | - |
| FitStartProps.v | `tc_recalculation` | C110 | DF |
| GradientProps.v | `fd_requests` | C91 | DF |
| GradientProps.v | `fd_estimate_when` | C92 | DF |
| GradientProps.v | `newton_failing_update` | C93 | - |
| GradientProps.v | `newton_init_iff` | C93 | - |
| GuiProps.v | `gui_default_inert` | C85 | - |
| GuiProps.v | `gui_step_bound` | C86 | - |
| GuiProps.v | `gui_step_lost_refuted` | C86 | - |
| GuiProps.v | `gui_pause_last` | C87 | - |
| GuiProps.v | `gui_close_blocked` | C88 | - |
| GuiProps.v | `gui_close_returns` | C88 | - |
| GuiProps.v | `gui_worker_survives` | C89 | - |
| GuiProps.v | `gui_failure_pauses` | C89 | - |
| GuiProps.v | `gui_start_lost_refuted` | C89 | - |
| GuiProps.v | `run_number_setter` | C90 | - |
| GuiProps.v | `run_number_empty_refuted` | C90 | - |
| GuiProps.v | `run_number_off_by_one` | C90 | - |
| HistoryProps.v | `history_rows` | C43 | DF |
| HistoryProps.v | `history_keeps_rows` | C43 | DF |
| HistoryProps.v | `history_up_to_date` | C44 | DF |
| HistoryProps.v | `iterations_are_steps` | C44 | - |
| HistoryProps.v | `same_point_ignored` | C44 | DF |
| HistoryProps.v | `history_up_to_date_refuted` | C44 | DF |
| HistoryProps.v | `unready_estimator_misaligns` | C82 | DF |
| HistoryProps.v | `unready_estimator_raises` | C82 | - |
| HistoryProps.v | `unevaluated_row_blocks` | C83 | DF |
| HistoryProps.v | `evaluator_rows_misaligned` | C84 | DF |
| HistoryProps.v | `evaluator_data_recorded` | C84 | DF |
| KalmanAskProps.v | `limited_requests_few` | C142 | - |
| KalmanAskProps.v | `limited_requests_converge` | C142 | - |
| KalmanAskProps.v | `limited_requests_bound` | C142 | - |
| KalmanAskProps.v | `limited_requests_reach` | C142 | - |
| KalmanEachProps.v | `each_requests_few` | C145 | - |
| KalmanEachProps.v | `each_requests_converge` | C145 | - |
| KalmanEachProps.v | `each_ignored_gate` | C145 | - |
| KalmanFadeProps.v | `fading_forgets` | C143 | - |
| KalmanFadeProps.v | `fading_recovers` | C143 | - |
| KalmanFadeProps.v | `fading_asks_again` | C143 | - |
| KalmanFadeProps.v | `drift_floor` | C143 | - |
| KalmanFadeProps.v | `drift_runs` | C143 | - |
| KalmanFadeProps.v | `drift_starves` | C143 | - |
| KalmanFadeProps.v | `drift_blind` | C143 | - |
| KalmanFitProps.v | `kalman_best_fit` | C136 | - |
| KalmanFitProps.v | `kalman_error_within` | C136 | - |
| KalmanGlobalProps.v | `kalman_runs` | C139 | - |
| KalmanGlobalProps.v | `kalman_regret` | C139 | - |
| KalmanGlobalProps.v | `kalman_far_rounds` | C139 | - |
| KalmanGlobalProps.v | `kalman_requests_few` | C139 | - |
| KalmanGlobalProps.v | `kalman_requests_converge` | C139 | - |
| KalmanLimitedProps.v | `limited_runs` | C141 | - |
| KalmanLimitedProps.v | `kalman_predictions` | C141 | - |
| KalmanLimitedProps.v | `limited_measurements` | C141 | - |
| KalmanLimitedProps.v | `limited_far` | C141 | - |
| KalmanLimitedProps.v | `limited_reaches` | C141 | - |
| KalmanLoopProps.v | `kalman_newton_contracts` | C128 | - |
| KalmanLoopProps.v | `kalman_newton_converges` | C128 | - |
| KalmanLoopProps.v | `kalman_exact_rounds` | C128 | - |
| KalmanLoopProps.v | `kalman_exact_refuted` | C128 | - |
| KalmanLoopProps.v | `kalman_exact_target` | C128 | - |
| KalmanProps.v | `kalman_covariance_psd` | C31 | - |
| KalmanProps.v | `kalman_never_more_uncertain` | C32 | - |
| KalmanProps.v | `kalman_variance_along_step` | C32 | - |
| KalmanProps.v | `kalman_fixed_point` | C33 | - |
| KalmanProps.v | `kalman_order_independent` | C55 | - |
| KalmanProps.v | `kalman_error_law` | C56 | - |
| KalmanProps.v | `kalman_requests` | C57 | - |
| KalmanProps.v | `gate_maximum_refuted` | C57 | - |
| KalmanProps.v | `kalman_requests_terminate` | C58 | - |
| KalmanProps.v | `tuned_requests` | C59 | - |
| KalmanProps.v | `tuned_directions_refuted` | C59 | - |
| KalmanProps.v | `tuned_step_width_refuted` | C59 | - |
| KalmanReloadProps.v | `kalman_gradient_reload` | C42 | - |
| KalmanReloadProps.v | `kalman_gradient_reload_behaves` | C42 | - |
| KalmanReloadProps.v | `kalman_gradient_given` | C42 | - |
| KalmanTunedProps.v | `tuned_requests_few` | C144 | - |
| KalmanTunedProps.v | `tuned_runaway` | C144 | - |
| LibraryProps.v | `history_source` | C122 | DF |
| LibraryProps.v | `later_calendar` | C121 | - |
| LibraryProps.v | `names_chronological` | C121 | - |
| LibraryProps.v | `clock_names` | C121 | DF |
| LibraryProps.v | `library_loaded` | C122 | DF |
| LibraryProps.v | `library_until` | C122 | DF |
| LibraryProps.v | `reload_nested` | C122 | - |
| LibraryProps.v | `library_after_reload_refuted` | C122 | DF |
| LimitedProps.v | `limited_learning` | C134 | - |
| LimitedProps.v | `limited_reaches_target` | C134 | - |
| LimitedProps.v | `limited_blocked_refuted` | C134 | - |
| LimitedProps.v | `limited_queue` | C134 | - |
| LinAlgProps.v | `newton_step_least_squares` | C22 | - |
| LinAlgProps.v | `finite_differences_exact` | C26 | - |
| LinAlgProps.v | `fd_covariance` | C27 | - |
| LinAlgProps.v | `shared_base_point_correlation_refuted` | C27 | - |
| LinAlgProps.v | `requested_points_determine_gradient` | C28 | - |
| LinAlgProps.v | `first_point_elsewhere_refuted` | C28 | - |
| LinAlgProps.v | `symmetric_fails_in_tuning_loop` | C29 | - |
| LinAlgProps.v | `symmetric_exact_on_requested_points` | C29 | - |
| LinAlgProps.v | `newton_fd_reaches_target` | C30 | - |
| LogProps.v | `configure_logging` | C125 | - |
| LogProps.v | `child_logger_messages` | C125 | - |
| LogProps.v | `level_chosen` | C125 | - |
| LogProps.v | `default_gui_messages` | C125 | - |
| LogProps.v | `default_gui_refuted` | C125 | - |
| LogProps.v | `second_window_refuted` | C125 | - |
| LogProps.v | `lowest_level_refuted` | C125 | - |
| LogProps.v | `logger_argument_refuted` | C125 | - |
| Mat2pyProps.v | `transform_int_same` | C48 | - |
| Mat2pyProps.v | `transform_int_negative` | C48 | - |
| Mat2pyProps.v | `transform_slice_same` | C48 | - |
| Mat2pyProps.v | `transform_slice_backwards` | C48 | - |
| Mat2pyProps.v | `transform_slice_start_raises` | C48 | - |
| Mat2pyProps.v | `transform_tuple` | C48 | - |
| Mat2pyProps.v | `transform_slice_refuted` | C48 | - |
| MatlabProps.v | `set_qqd_guard` | C49 | DF |
| MatlabProps.v | `qqd_request_accepted` | C71 | DF |
| MatlabProps.v | `qqd_run_safe` | C71 | DF |
| MatlabProps.v | `qqd_blocked` | C72 | DF |
| MatlabProps.v | `qqd_nan_refuted` | C73 | DF |
| MatlabProps.v | `abs_limit_guard` | C49 | DF |
| MatlabProps.v | `abs_limit_refuted` | C49 | DF |
| MatlabProps.v | `set_pretuned_guard` | C49 | DF |
| MatlabProps.v | `set_pretuned_refuted` | C49 | DF |
| MatlabProps.v | `change_sensing_guard` | C74 | DF |
| MatlabProps.v | `retune_qpc_guard` | C74 | DF |
| MatlabProps.v | `retune_qpc_refuted` | C74 | DF |
| MinGradProps.v | `min_gradient_explains` | C129 | - |
| MinGradProps.v | `min_gradient_refused` | C129 | - |
| MinGradProps.v | `min_gradient_affine` | C129 | - |
| MinGradProps.v | `min_gradient_quadratic` | C129 | - |
| MinGradProps.v | `min_gradient_rows` | C129 | - |
| MinGradProps.v | `suggested_direction` | C129 | - |
| MinGradProps.v | `suggested_direction_single` | C129 | - |
| MinGradProps.v | `suggested_direction_refuted` | C129 | - |
| NelderMeadProps.v | `nelder_mead_simplex_size` | C23 | DF |
| NelderMeadProps.v | `nelder_mead_keeps_best` | C24 | DF |
| NelderMeadProps.v | `nelder_mead_never_reflects_again` | C25 | DF |
| NelderMeadProps.v | `nelder_mead_coefficients` | C60 | DF |
| NelderMeadProps.v | `reflection_in_one_dimension_refuted` | C60 | DF |
| NelderMeadProps.v | `nelder_mead_collapse` | C61 | DF |
| NelderMeadProps.v | `nelder_mead_stays_in_box` | C62 | DF |
| NelderMeadProps.v | `nelder_mead_no_internal_error` | C63 | DF |
| NelderMeadProps.v | `complete_simplex_refuted` | C63 | DF |
| NelderMeadProps.v | `nan_point_stays_refuted` | C64 | DF |
| NelderMeadProps.v | `nelder_mead_unusable_refuted` | C65 | DNF |
| NelderMeadProps.v | `nelder_mead_reload_refuted` | C42, C65 | - |
| NelderMeadProps.v | `nelder_mead_build_up` | C94 | DF |
| NelderMeadProps.v | `nelder_mead_remembers` | C94 | DF |
| NelderMeadProps.v | `nelder_mead_decides` | C94 | DF |
| NewtonProps.v | `newton_requests_first` | C20 | D |
| NewtonProps.v | `newton_updates_only_desired` | C20 | - |
| NewtonProps.v | `newton_step_inputs` | C21 | DF |
| NewtonProps.v | `newton_blocked_by_missing_gradient` | C52 | D |
| NewtonProps.v | `fd_without_desired_blocks_newton` | C52 | DF |
| NewtonProps.v | `kalman_bookkeeping` | C34 | DNF |
| NewtonProps.v | `kalman_update_exception_safe` | C34 | DNF |
| NewtonProps.v | `restart_does_not_reposition` | C35 | DF |
| NewtonProps.v | `self_initialising_kalman_never_initialises` | C36 | DNF |
| NewtonProps.v | `fd_gradient_never_refreshed` | C53 | DF |
| NewtonProps.v | `fd_failure_is_final` | C54 | DF |
| NumericsProps.v | `gradient_from_points_exact` | C98 | DF |
| NumericsProps.v | `gradient_covariance_exact` | C98 | DF |
| NumericsProps.v | `orthogonal_vector_exact` | C98 | DNF |
| NumericsProps.v | `hierarchy_with_library_routines` | C98 | DNF |
| OrganizerProps.v | `organizer_shows` | C124 | - |
| OrganizerProps.v | `organizer_start` | C124 | - |
| OrganizerProps.v | `action_refreshes` | C124 | - |
| OrganizerProps.v | `choices_made` | C124 | - |
| OrganizerProps.v | `organizer_failure_refuted` | C124 | - |
| OrganizerProps.v | `organizer_colours_refuted` | C124 | - |
| PassThruProps.v | `passthru_dealt` | C117 | DF |
| PassThruProps.v | `passthru_lines` | C117 | DF |
| PassThruProps.v | `passthru_first` | C117 | DF |
| PassThruProps.v | `passthru_files` | C117 | DF |
| PassThruProps.v | `passthru_failed_refuted` | C117 | DF |
| PassThruProps.v | `passthru_package_refuted` | C117 | DF |
| PassThruProps.v | `passthru_mixed_refuted` | C117 | DF |
| PassThruProps.v | `passthru_line_lead_refuted` | C117 | DF |
| PlotProps.v | `plot_names` | C111 | - |
| PlotProps.v | `plot_names_refuted` | C111 | - |
| PlotProps.v | `plot_layout` | C111 | - |
| PlotProps.v | `plot_refuted` | C111 | - |
| PlotProps.v | `window_refuted` | C112 | - |
| PlotProps.v | `window_transition` | C112 | - |
| PlotProps.v | `window_refresh` | C112 | - |
| PlotProps.v | `lead_plot_refuted` | C113 | - |
| PlotProps.v | `marks_refuted` | C113 | - |
| PlotProps.v | `parameter_plot_refuted` | C113 | - |
| PlotProps.v | `gradient_plot_refuted` | C113 | - |
| RaceProps.v | `race_safe` | C100 | - |
| RaceProps.v | `race_serialised` | C100 | - |
| RaceProps.v | `race_complete_tuned` | C100 | - |
| RaceProps.v | `race_complete_untuned_refuted` | C100 | - |
| RaceProps.v | `race_reload_undone_refuted` | C100 | - |
| RaceProps.v | `race_iterate_fails_refuted` | C100 | - |
| RawWindowProps.v | `raw_window_buttons` | C137 | - |
| RawWindowProps.v | `raw_window_number` | C137 | - |
| RawWindowProps.v | `raw_window_pictures` | C137 | - |
| RawWindowProps.v | `raw_window_stale_refuted` | C137 | - |
| ReadyProps.v | `ready_outcome` | C130 | - |
| ReadyProps.v | `estimators_steady` | C130 | DNF |
| ReadyProps.v | `ready_solvers_step` | C130 | D |
| ReadyProps.v | `not_ready_solver_requests` | C130 | D |
| ReadyProps.v | `undesired_never_ready` | C130 | D |
| ReadyProps.v | `fd_ready` | C130 | DF |
| ReadyProps.v | `fd_ready_writes` | C130 | DF |
| ReadyProps.v | `ready_means_no_request_refuted` | C130 | DNF |
| ReevalProps.v | `reevaluate_never` | C138 | - |
| ReevalProps.v | `reevaluate_intended` | C138 | - |
| RegistryProps.v | `class_statements` | C131 | - |
| RegistryProps.v | `imports_registered` | C131 | - |
| RegistryProps.v | `package_classes_known` | C131 | - |
| RegistryProps.v | `kalman_heuristics_refuted` | C131 | - |
| RegistryProps.v | `unknown_class_refuted` | C131 | - |
| RegistryProps.v | `version_cases` | C131 | - |
| RegistryProps.v | `version_other_repository_refuted` | C131 | - |
| RegistryProps.v | `version_of_file` | C131 | - |
| RegistryProps.v | `version_needed` | C131 | - |
| RegistryProps.v | `read_files_refuted` | C131 | - |
| RegistryProps.v | `load_auto_tuner_round_trip` | C131 | - |
| ReloadProps.v | `subset_reload_iff` | C41 | DNF |
| ReloadProps.v | `newton_reload` | C42 | D |
| ReloadProps.v | `estimators_keep_gates` | C42 | DNF |
| ReloadProps.v | `forwarding_reload` | C42 | DF |
| ReloadProps.v | `kalman_estimator_reload` | C42 | DNF |
| ReloadProps.v | `subset_newton_reload` | C42 | DNF |
| ReloadProps.v | `fd_reload_iff` | C42 | DF |
| ReloadProps.v | `selfinit_reload_fails` | C42 | DNF |
| ReloadProps.v | `sensing_dot_reload` | C42 | DF |
| ReloadProps.v | `sensing_dot_forgets_failure` | C42 | DF |
| ReloadProps.v | `sensing_dot_reload_no_recovery` | C42 | DF |
| ReloadProps.v | `reload_path_grows` | C42 | - |
| SensorProps.v | `peak_flank` | C152 | DNCF |
| SensorProps.v | `sensing_dot_simulated` | C152 | DNCF |
| SensorProps.v | `sensing_dot_repeated` | C152 | DNCF |
| SensorProps.v | `sensing_dot_2d_stretched` | C152 | DNF |
| SerialProps.v | `evaluator_reload` | C106 | - |
| SerialProps.v | `evaluator_reload_again` | C106 | - |
| SerialProps.v | `evaluator_reload_refuted` | C106 | - |
| SerialProps.v | `measurement_reload` | C106 | - |
| SerialProps.v | `qqd_measurement_refuted` | C106 | - |
| SerialProps.v | `constructor_call` | C120 | - |
| SerialProps.v | `constructor_fields` | C120 | - |
| SerialProps.v | `transition_scans` | C120 | - |
| SerialProps.v | `averaging_made` | C120 | - |
| SerialProps.v | `response_series` | C120 | - |
| SerialProps.v | `passthru_series` | C120 | - |
| SimProps.v | `transition_window` | C127 | DNCF |
| SimProps.v | `transition_position` | C127 | DNCF |
| SimProps.v | `lead_transition_simulated` | C127 | DNCF |
| SimProps.v | `transition_edge_refuted` | C127 | DNCF |
| SimProps.v | `sim_constructor` | C127 | - |
| SimProps.v | `sim_voltages` | C127 | - |
| SimProps.v | `initial_voltages_refuted` | C127 | DF |
| SimProps.v | `sim_measured` | C127 | - |
| SimProps.v | `detune_simulation_refuted` | C127 | - |
| SnapshotProps.v | `snapshot_trip` | C119 | - |
| SnapshotProps.v | `snapshot_new` | C119 | - |
| SnapshotProps.v | `multiprocess_refuted` | C119 | - |
| StorageProps.v | `hdf5_round_trip` | C37, C38 | - |
| StorageProps.v | `shared_array_refuted` | C37 | - |
| StorageProps.v | `id_reuse_refuted` | C38 | - |
| StorageProps.v | `second_save_refuted` | C66 | - |
| StorageProps.v | `self_reference_refuted` | C67 | - |
| StorageProps.v | `slash_in_key_refuted` | C68 | - |
| TargetProps.v | `set_target_exact` | C50 | - |
| TargetProps.v | `change_targets_exact` | C50 | - |
| TargetProps.v | `make_target_exact` | C99 | D |
| TuneProps.v | `tune_call` | C118 | - |
| TuneProps.v | `tune_repeat` | C118 | - |
| TuneProps.v | `tune_understood` | C118 | - |
| TuneProps.v | `tune_result_kind` | C118 | - |
| TuneProps.v | `offered_refuted` | C118 | - |
| TuneProps.v | `legacy_scan` | C118 | - |
| TuneProps.v | `legacy_scan_2d` | C118 | - |
| TunerProps.v | `subset_tuner_tuned_iff` | C09 | DF |
| TunerProps.v | `failed_evaluation_quarantined` | C10 | DF |
| TunerProps.v | `evaluatable_voltages_were_evaluated` | C10 | DNF |
| TunerProps.v | `tuned_voltages_are_evaluatable` | C10 | DNF |
| TunerProps.v | `recovery_halves_distance` | C11 | DNF |
| TunerProps.v | `recovery_without_evaluatable_point` | C11 | DNF |
| TunerProps.v | `step_limit_and_direction` | C13 | DNF |
| TunerProps.v | `unlimited_step_passed_on` | C13 | DNF |
| TunerProps.v | `only_own_gates_move` | C12 | DNF |
| TunerProps.v | `queue_bounded` | C14 | DNF |
| TunerProps.v | `blind_steps_counted` | C14 | DNF |
| TunerProps.v | `zero_step_number_blocks_evaluation` | C14 | DNF |
| TunerProps.v | `exact_multiple_livelock` | C15 | DNF |
| TunerProps.v | `sensing_dot_decision` | C16 | DF |
| TunerProps.v | `expensive_nan_not_detected` | C17 | DF |
| TunerProps.v | `nan_blocks_autotuner_forever` | C17 | - |
| TunerProps.v | `descale_undoes_rescale` | C18 | DF |
| TunerProps.v | `rescale_divides` | C18 | DF |
| TunerProps.v | `rescale_leaves_unmentioned` | C18 | DF |
| TunerProps.v | `forwarding_suggestion` | C19 | DF |
| TunerProps.v | `forwarding_restart_keeps_suggestion` | C19 | DF |
| UtilProps.v | `moving_average_entries` | C47 | DF |
| UtilProps.v | `moving_average_errors` | C47 | DF |
| UtilProps.v | `moving_average_bounds` | C47 | DF |
| UtilProps.v | `moving_average_constant` | C47 | DF |
| UtilProps.v | `nth_diff_entries` | C47 | D |
| UtilProps.v | `at_diff_is_nth_diff` | C76 | DF |
| UtilProps.v | `transition_index_max` | C47 | DF |
| UtilProps.v | `transition_index_step` | C76 | DF |
| UtilProps.v | `transition_index_refuted` | C75 | DF |
| UtilProps.v | `find_lead_transition_result` | C75 | DF |
| UtilProps.v | `find_lead_transition_refuted` | C75 | DF |
| UtilProps.v | `steepest_point_inside` | C76 | DF |
| ViewProps.v | `call_exact` | C140 | - |
| ViewProps.v | `results_stay` | C140 | - |
| ViewProps.v | `data_pile_up` | C140 | - |
| ViewProps.v | `call_refuted` | C140 | - |
| ViewProps.v | `struct_attributes` | C140 | - |
| ViewProps.v | `struct_items` | C140 | - |
| ViewProps.v | `views_follow` | C140 | - |
| ViewProps.v | `pair_measured` | C140 | - |
| WindowsProps.v | `tuner_at_work` | C126 | - |
| WindowsProps.v | `never_a_tuner` | C126 | - |
| WindowsProps.v | `worker_tuner` | C126 | - |
| WindowsProps.v | `worker_stops` | C126 | - |
| WindowsProps.v | `appended_was_iterated` | C126 | - |
| WindowsProps.v | `appended_not_iterated_refuted` | C126 | - |
| WindowsProps.v | `window_refers` | C126 | - |
| WindowsProps.v | `voltages_reloaded` | C126 | - |
| WindowsProps.v | `state_reloaded` | C126 | - |
| WindowsProps.v | `stale_window_refuted` | C126 | - |
| WindowsProps.v | `windows_listed` | C126 | - |
| WriterProps.v | `writer_in_order` | C39 | - |
| WriterProps.v | `writer_stops_at_failure` | C39 | - |
| WriterProps.v | `writer_join_complete` | C39 | - |
| WriterProps.v | `writer_answers` | C69 | - |
| WriterProps.v | `writer_completes` | C40, C69 | - |
| WriterProps.v | `writer_closed_after_join` | C39 | - |
| WriterProps.v | `writer_comes_to_rest` | C69 | - |
| WriterProps.v | `writer_join_deadlock` | C40 | - |
| WriterProps.v | `writer_deadlock_possible` | C40 | - |
| WriterProps.v | `writer_silent_loss_refuted` | C70 | - |
