{"id": "C01", "title": "The autotuner never sends NaN to the hardware", "statement": "In every history of iterate(), change_targets() and restart() calls, every Series handed to Experiment.set_gate_voltages by the Autotuner is free of NaN; an iterate() that would set a NaN voltage raises RuntimeError instead, performs no hardware write and leaves index, status and pending voltages unchanged.", "quantifier": "all experiments, all tuner/solver/evaluator behaviours (including raising ones), all finite histories of public calls, exceptions caught by the caller anywhere", "why_tests_cant": "needs every tuner behaviour and every call history; a test fixes one stub tuner and one short history", "anchors": ["qtune/autotuner.py:Autotuner.iterate"]}
{"id": "C02", "title": "One action per iterate", "statement": "Every successful iterate() does exactly one of: one evaluation (is_tuned) of the current tuner, one voltage computation (get_next_voltages) by the current tuner, or one set_gate_voltages call with exactly the pending voltages; a pending set has priority, then a pending computation, and it ends with exactly one save when a storage path is configured and none otherwise.", "quantifier": "all reachable autotuner states and all environments", "why_tests_cant": "the claim is about every reachable state, not sampled ones", "anchors": ["qtune/autotuner.py:Autotuner.iterate", "qtune/autotuner.py:Autotuner.save_current_status"]}
{"id": "C03", "title": "Tuning complete means everything was tuned at the present voltages", "statement": "Whenever is_tuning_complete() is true, the most recent events are evaluations reporting 'tuned' for tuner 0, 1, ..., n-1 in this order, and no voltage was set, no change_targets() completed and no restart() was called after the first of them. (A change_targets() that raises half-way is the exception: it has changed some targets but does not reset the position, so the tuning may still count as complete.)", "quantifier": "all environments, all finite histories from a fresh Autotuner", "why_tests_cant": "history property over unbounded runs; tests run one trajectory", "anchors": ["qtune/autotuner.py:Autotuner.iterate", "qtune/autotuner.py:Autotuner.is_tuning_complete"]}
{"id": "C04", "title": "Tuners are evaluated bottom-up after every voltage change", "statement": "In every history, the first tuner evaluated after a voltage change is tuner 0 and tuner i+1 is only ever evaluated when the latest evaluation event is 'tuner i tuned' at unchanged voltages.", "quantifier": "all environments and all finite histories", "why_tests_cant": "ordering property of unbounded traces", "anchors": ["qtune/autotuner.py:Autotuner.iterate"]}
{"id": "C05", "title": "Voltages come from the tuner that was found untuned", "statement": "In histories of iterate() calls only, every set_gate_voltages call passes exactly the Series returned by get_next_voltages of one tuner, whose own evaluation at the voltages then present returned 'not tuned' since the previous set; the parameters reported as already tuned in that call are those of the tuners below it.", "quantifier": "all environments, all finite histories of iterate()", "why_tests_cant": "unbounded trace property over arbitrary tuners", "anchors": ["qtune/autotuner.py:Autotuner.iterate", "qtune/autotuner.py:Autotuner.tuned_parameters"]}
{"id": "C06", "title": "restart()/change_targets() restart the hierarchy by an evaluation only if no evaluation result was pending", "statement": "After restart() or change_targets() the next iterate() evaluates tuner 0 if and only if current_tuner_status was False; if it was True (an evaluation said 'not tuned' and the voltages were not computed yet) the stale status survives and the next iterate() asks tuner 0 for new voltages without evaluating it.", "quantifier": "all states of the autotuner at the moment of the call", "why_tests_cant": "the window (one evaluation done, voltages not yet computed) is one of several interleavings of user calls with the state machine", "anchors": ["qtune/autotuner.py:Autotuner.restart", "qtune/autotuner.py:Autotuner.change_targets", "qtune/autotuner.py:Autotuner.iterate"]}
{"id": "C07", "title": "An exception inside iterate() never loses a step", "statement": "If the experiment or a tuner raises during iterate(), then index, status and pending voltages are the same as before, so calling iterate() again retries the same action; if only the saving raises, the step has been carried out in full and is not repeated.", "quantifier": "all states, all environments, every point at which a called component may raise", "why_tests_cant": "quantifies over every crash point", "anchors": ["qtune/autotuner.py:Autotuner.iterate"]}
{"id": "C08", "title": "Crash and reload repeats at most the last action", "statement": "If the process dies at any point of an iterate() and the autotuner is rebuilt from the last complete save, the rebuilt state equals the state at the end of the iteration that wrote it except for the storage path; the next iterate() performs the same kind of action (same tuner, same voltages) as the interrupted one; in the same world the rebuilt autotuner behaves like the original one for ever; if the crash fell between set_gate_voltages and the save, and writing the same voltages twice is harmless, continuing sets the identical voltages again and ends in the same state as the uninterrupted run.", "quantifier": "all states, all environments, every crash point of an iteration", "why_tests_cant": "needs every crash point and every continuation", "anchors": ["qtune/autotuner.py:Autotuner.iterate", "qtune/autotuner.py:Autotuner.to_hdf5", "qtune/autotuner.py:load_auto_tuner"]}
{"id": "C09", "title": "A SubsetTuner reports tuned exactly when every target is met", "statement": "When no step is queued, SubsetTuner.is_tuned returns True iff no relevant parameter is NaN and for every parameter in the target |desired - measured/rescaling_factor| < tolerance, where a missing desired or measured value counts as distance 0 and a missing tolerance as infinite.", "quantifier": "all targets, all measured values including NaN and infinities, all tuner states", "why_tests_cant": "the input space (NaN patterns x values) is infinite", "anchors": ["qtune/parameter_tuner.py:SubsetTuner.is_tuned", "qtune/solver.py:Solver.rescale_values", "qtune/solver.py:make_target"]}
{"id": "C10", "title": "A failed evaluation is quarantined", "statement": "If any relevant parameter evaluates to NaN, SubsetTuner.is_tuned returns False, marks the evaluation as failed, does not hand the values to the solver and does not add the voltages to the evaluatable or tuned voltages; every voltage vector in the evaluatable list was passed to is_tuned with all relevant parameters not NaN.", "quantifier": "all histories of is_tuned/get_next_voltages/restart calls and all evaluator behaviours", "why_tests_cant": "invariant over unbounded histories", "anchors": ["qtune/parameter_tuner.py:SubsetTuner.is_tuned"]}
{"id": "C11", "title": "Recovery walks back geometrically to the last evaluatable point", "statement": "While evaluations keep failing, the k-th recovery voltage is good + (bad - good)/2^k for every gate, where good is the latest evaluatable voltage vector; the distance to it is halved in each round. When nothing was ever evaluated successfully the call raises IndexError and sets nothing.", "quantifier": "all k, all gate vectors, all solvers", "why_tests_cant": "unbounded number of consecutive failures", "anchors": ["qtune/parameter_tuner.py:SubsetTuner.get_next_voltages"]}
{"id": "C12", "title": "A SubsetTuner only moves its own gates", "statement": "When the last evaluation did not fail, get_next_voltages returns a Series on exactly the gates of the last voltages and every gate that the solver does not mention keeps its last value.", "quantifier": "all voltages, all solver suggestions, all step limits", "why_tests_cant": "all label sets and suggestions", "anchors": ["qtune/parameter_tuner.py:SubsetTuner.get_next_voltages"]}
{"id": "C13", "title": "The step limit is respected and the direction kept", "statement": "With a positive finite maximal_step_size the Euclidean norm of (returned voltages - last voltages) is at most maximal_step_size, and the step is c times the step suggested by the solver with 0 <= c <= 1; c = 1 exactly when the suggested step is not longer than the limit. Without a limit (NaN) the suggestion is passed on unchanged.", "quantifier": "all dimensions, all real vectors, all limits", "why_tests_cant": "continuous input space of arbitrary dimension", "anchors": ["qtune/parameter_tuner.py:SubsetTuner.get_next_voltages"]}
{"id": "C14", "title": "Number of blind steps is bounded", "statement": "The number of queued steps never exceeds maximal_step_number - 1 and never becomes negative provided maximal_step_number >= 1; and if the solver's suggestion is longer than the limit in each round, exactly min(int(norm/limit), maximal_step_number) steps are made before the next evaluation. For maximal_step_number = 0 the queue becomes negative and the tuner never evaluates again.", "quantifier": "all step lengths, limits, numbers of steps and histories", "why_tests_cant": "unbounded histories and real-valued lengths", "anchors": ["qtune/parameter_tuner.py:SubsetTuner.is_tuned", "qtune/parameter_tuner.py:SubsetTuner.get_next_voltages"]}
{"id": "C15", "title": "Queued steps towards a fixed point can block the tuner forever", "statement": "If the solver keeps suggesting the same absolute position at distance exactly k*maximal_step_size (2 <= k <= maximal_step_number), the position is reached but one queued step remains; from then on is_tuned never evaluates again and get_next_voltages never moves again, in every continuation.", "quantifier": "all k, all positions, all continuations of any length", "why_tests_cant": "the claim is about an infinite run (livelock)", "anchors": ["qtune/parameter_tuner.py:SubsetTuner.is_tuned", "qtune/parameter_tuner.py:SubsetTuner.get_next_voltages"]}
{"id": "C16", "title": "Sensing dot decision rule", "statement": "SensingDotTuner.is_tuned returns True iff no cheap parameter is NaN and none is <= its minimum (missing minima never count); the expensive evaluation runs iff no cheap parameter is NaN, some parameter is <= its minimum and some parameter is <= its cost threshold; the solver is updated exactly when the dot is evaluatable but not tuned, with the values of the last evaluation performed.", "quantifier": "all targets and values incl. NaN and infinities", "why_tests_cant": "infinite decision table", "anchors": ["qtune/parameter_tuner.py:SensingDotTuner.is_tuned"]}
{"id": "C17", "title": "NaN from the expensive evaluation is not detected by the tuner", "statement": "If the expensive evaluation returns NaN for a forwarded position, is_tuned does not flag a failure, the next voltages contain NaN, and from then on every iterate() raises RuntimeError without ever touching the hardware again.", "quantifier": "all continuations consisting of iterate() calls", "why_tests_cant": "infinite run; needs the composition of evaluator, solver, tuner and autotuner", "anchors": ["qtune/parameter_tuner.py:SensingDotTuner.is_tuned", "qtune/solver.py:ForwardingSolver.update_after_step", "qtune/autotuner.py:Autotuner.iterate"]}
{"id": "C18", "title": "Rescaling is undone by descaling", "statement": "For every target with non-zero rescaling factors, descale_values after rescale_values restores values and variances exactly (in exact arithmetic), parameters not mentioned in the target are untouched, variances scale with the squared factor.", "quantifier": "all targets, values, variances and label sets", "why_tests_cant": "continuous input space", "anchors": ["qtune/solver.py:Solver.rescale_values", "qtune/solver.py:Solver.descale_values"]}
{"id": "C19", "title": "The forwarding solver forwards the measured positions", "statement": "After update_after_step the suggestion equals the evaluated position except on the gates named by values_to_position, where it equals the value in original (unscaled) units; gates not in the solver's position are ignored; restart() does not touch the suggestion.", "quantifier": "all positions, mappings, values, targets", "why_tests_cant": "all label sets and values", "anchors": ["qtune/solver.py:ForwardingSolver.update_after_step", "qtune/solver.py:ForwardingSolver.suggest_next_position"]}
{"id": "C20", "title": "Newton: measurement requests come first and only for tuned parameters", "statement": "suggest_next_position returns the request of the first gradient estimator, in target order, whose parameter has a desired value and which asks for a measurement; estimators of parameters with desired = NaN are never asked and never updated.", "quantifier": "all estimator lists and targets", "why_tests_cant": "all request patterns and targets of any length", "anchors": ["qtune/solver.py:NewtonSolver.suggest_next_position", "qtune/solver.py:NewtonSolver.update_after_step"]}
{"id": "C21", "title": "Newton: what happens to parameters with desired = NaN", "statement": "The difference the Newton step tries to produce is desired - current for parameters with a desired value, 0 for a parameter with neither desired nor measured value, and -current (towards zero, not 'keep constant') for a measured parameter with desired = NaN.", "quantifier": "all targets and current values", "why_tests_cant": "documented intent ('nan targets are replaced with the current values') differs from behaviour only on inputs no test uses", "anchors": ["qtune/solver.py:NewtonSolver.suggest_next_position"]}
{"id": "C22", "title": "Newton step solves the linearised problem", "statement": "For every Jacobian the suggested step is the minimum-norm least-squares solution: it minimises |J s - d|, is orthogonal to the kernel of J, and if J has full row rank (the estimators are independent) J s = d exactly; so for parameters that depend affinely on the gates with Jacobian J one step reaches the target exactly.", "quantifier": "all dimensions, all matrices over a real field", "why_tests_cant": "all dimensions and all real matrices", "anchors": ["qtune/solver.py:NewtonSolver.suggest_next_position", "qtune/solver.py:NewtonSolver.jacobian"]}
{"id": "C23", "title": "Nelder-Mead simplex size", "statement": "Starting from a simplex of 1..n+1 points the simplex grows by one point per update until it has n+1 points and has exactly n+1 points ever after; costs are sorted from then on.", "quantifier": "all dimensions, all cost functions, all sequences of positions and values", "why_tests_cant": "invariant over unbounded histories", "anchors": ["qtune/solver.py:NelderMeadSolver.update_after_step", "qtune/solver.py:NelderMeadSolver._insert_into_simplex"]}
{"id": "C24", "title": "Nelder-Mead never forgets its best point", "statement": "Once the simplex is full, neither the best nor the worst nor any order statistic of the simplex costs ever increases; every simplex point is a point that was really measured (given initially or passed to update_after_step).", "quantifier": "all sequences of updates and suggestions", "why_tests_cant": "unbounded histories", "anchors": ["qtune/solver.py:NelderMeadSolver.update_after_step"]}
{"id": "C25", "title": "Nelder-Mead does not return to reflection after a successful expansion or contraction", "statement": "Once a full simplex has left reflection (expansion, contraction or shrinking was entered), no reflection is ever suggested again, whatever is suggested, measured and fed back: the solver repeats the same kind of step, or changes from contraction to shrinking, and stays there.", "quantifier": "all continuations of suggestions and updates", "why_tests_cant": "property of infinite runs", "anchors": ["qtune/solver.py:NelderMeadSolver.suggest_next_position", "qtune/solver.py:NelderMeadSolver.update_after_step"]}
{"id": "C26", "title": "Finite differences are exact on affine functions", "statement": "calculate_gradient_non_orthogonal returns the exact gradient of every affine function for every choice of n+1 (or 2n pairwise) points whose difference matrix is invertible, independent of the offset; if the difference matrix is singular it raises EvaluationError.", "quantifier": "all dimensions, all affine functions, all point sets", "why_tests_cant": "all dimensions and real inputs", "anchors": ["qtune/util.py:calculate_gradient_non_orthogonal", "qtune/util.py:gradient_min_evaluations"]}
{"id": "C27", "title": "Gradient covariance is a correct error propagation", "statement": "The covariance returned by calculate_gradient_non_orthogonal is symmetric and positive semi-definite for non-negative variances, and equals the propagated covariance A diag(var) A^T of the linear map from differences to gradient with the difference variances var_i + var_0.", "quantifier": "all dimensions, all variances", "why_tests_cant": "all dimensions and real inputs", "anchors": ["qtune/util.py:calculate_gradient_non_orthogonal"]}
{"id": "C28", "title": "Requested finite-difference points always determine the gradient", "statement": "For every positive step vector epsilon the asymmetric estimator, fed with measurements at exactly the points it requests (starting with its current position), never requests a degenerate point: after n+1 measurements the difference matrix is invertible, so the estimate exists and is exact for affine functions.", "quantifier": "all dimensions n, all positive epsilon, all start positions, every choice of null-space vector", "why_tests_cant": "all dimensions", "anchors": ["qtune/gradient.py:FiniteDifferencesGradientEstimator.require_measurement", "qtune/gradient.py:FiniteDifferencesGradientEstimator.update", "qtune/util.py:get_orthogonal_vector"]}
{"id": "C29", "title": "Symmetric finite differences fail in the tuning loop", "statement": "When the first measurement given to a symmetric estimator is at its own current position (as the tuning loop does), the mirrored request is the same point, the first difference is zero and after 2n measurements the estimation raises EvaluationError instead of producing a gradient - for every dimension and epsilon.", "quantifier": "all dimensions, all epsilon, all measured values", "why_tests_cant": "all dimensions; tests only call the estimator in another order", "anchors": ["qtune/gradient.py:FiniteDifferencesGradientEstimator.require_measurement", "qtune/gradient.py:FiniteDifferencesGradientEstimator.update"]}
{"id": "C30", "title": "Newton with finite differences reaches the target of an affine system", "statement": "For parameters that are affine in the gates with independent gradients, exact measurements, no step limit and any positive epsilon: the closed loop evaluate / suggest / set performs n+1 evaluations for the gradients and the following suggestion makes every parameter equal its desired value exactly.", "quantifier": "all numbers of gates and parameters, all full-rank affine systems, all start positions and targets", "why_tests_cant": "end-to-end convergence for all systems", "anchors": ["qtune/solver.py:NewtonSolver", "qtune/gradient.py:FiniteDifferencesGradientEstimator", "qtune/parameter_tuner.py:SubsetTuner"]}
{"id": "C31", "title": "Kalman covariance stays symmetric positive semi-definite", "statement": "After any sequence of updates with PSD measurement and process covariances the covariance of the gradient is symmetric and positive semi-definite.", "quantifier": "all dimensions, numbers of values, initial PSD covariances, step vectors and histories", "why_tests_cant": "unbounded histories of real matrices", "anchors": ["qtune/kalman_gradient.py:KalmanGradient.update", "qtune/kalman_gradient.py:KalmanGradient.cov"]}
{"id": "C32", "title": "A Kalman update never increases uncertainty", "statement": "Without process noise and with alpha = 1 and F = 1, for every direction v the variance v P v^T after an update is at most the one before; it strictly decreases along the measured step if that variance was positive; uncorrelated directions are unchanged.", "quantifier": "all dimensions, all steps, all PSD P and R > 0", "why_tests_cant": "all real inputs", "anchors": ["qtune/kalman_gradient.py:KalmanGradient.update"]}
{"id": "C33", "title": "The true gradient is a fixed point of the Kalman filter", "statement": "If the current gradient estimate reproduces the measured difference exactly, the update leaves the estimate unchanged; and with a noise-free measurement (R = 0, S invertible) the updated estimate reproduces the measured difference exactly.", "quantifier": "all dimensions, all steps", "why_tests_cant": "all real inputs", "anchors": ["qtune/kalman_gradient.py:KalmanGradient.update"]}
{"id": "C34", "title": "Kalman estimator bookkeeping", "statement": "The Kalman estimator feeds the filter exactly with (position - last position, value - last value) of consecutive updates, skips steps shorter than 1e-7, uses the first value after construction without value or after restart() only as reference, and never feeds a difference across a restart().", "quantifier": "all sequences of update()/restart() calls", "why_tests_cant": "unbounded histories", "anchors": ["qtune/gradient.py:KalmanGradientEstimator.update", "qtune/gradient.py:KalmanGradientEstimator.restart"]}
{"id": "C35", "title": "restart() does not reposition gradient estimators and parameter tuners", "statement": "Assigning new positions/voltages to a gradient estimator or parameter tuner that already has some leaves them unchanged, because labels are intersected with values: after restart() the finite-difference estimator still requests points around the old position and last_voltages is still the old one, whereas the solver's own position is updated on the common gates.", "quantifier": "all positions with string labels and numeric values", "why_tests_cant": "no test checks positions after restart; holds for every input", "anchors": ["qtune/parameter_tuner.py:ParameterTuner.last_voltages", "qtune/gradient.py:GradientEstimator.current_position", "qtune/solver.py:Solver.current_position"]}
{"id": "C36", "title": "Self-initialising Kalman estimator never initialises", "statement": "While the finite-difference phase is incomplete the estimator behaves exactly like the finite-difference estimator; the update that completes it raises TypeError, and so does every later update, so no Kalman estimator is ever created.", "quantifier": "all histories of updates; kalman_gradient_args a dict, or None and a covariance with an entry that is neither NaN nor 1.", "why_tests_cant": "unbounded histories", "anchors": ["qtune/gradient.py:SelfInitializingKalmanEstimator.update"]}
{"id": "C37", "title": "HDF5 round trip", "statement": "Loading what was saved to a new file gives back a copy of the saved object graph: same structure and values, the same sharing for dicts, lists, tuples, instances, Series, DataFrames and strings (objects correspond one to one), reserved objects replaced by the objects supplied on loading, for every acyclic graph of dicts, lists, tuples, instances, arrays, Series, DataFrames, strings, numbers and None, provided ids are unique during the save. Arrays are the exception: a shared array is loaded as several arrays; numbers become numpy scalars.", "quantifier": "all finite acyclic object graphs of any shape and depth", "why_tests_cant": "all object graphs", "anchors": ["qtune/storage.py:to_hdf5", "qtune/storage.py:_to_hdf5", "qtune/storage.py:from_hdf5", "qtune/storage.py:_from_hdf5"]}
{"id": "C38", "title": "Id reuse of temporaries corrupts saved state", "statement": "If an instance's to_hdf5() returns a temporary object (as KalmanGradient does for its gradient) whose id is reused by a later temporary within the same save, the later one is stored as a reference to the earlier one, and loading silently yields the wrong value; with ids unique during the save this cannot happen.", "quantifier": "all memory allocators / id assignments", "why_tests_cant": "depends on the allocator's schedule", "anchors": ["qtune/storage.py:_to_hdf5", "qtune/kalman_gradient.py:KalmanGradient.to_hdf5", "qtune/kalman_gradient.py:KalmanGradient.grad"]}
{"id": "C39", "title": "Asynchronous writer: FIFO, snapshots, no loss", "statement": "In every interleaving of the user thread and the worker, the files written are a prefix of the accepted write() calls in order, each with the state at the time of the call; if no write fails, join() returns only after all accepted tasks are written; after a failed task write() raises RuntimeError and later accepted tasks are never written.", "quantifier": "all interleavings, all task sequences, all failure patterns", "why_tests_cant": "quantifies over thread schedules", "anchors": ["qtune/storage.py:AsynchronousHDF5Writer", "qtune/storage.py:_writer_target"]}
{"id": "C40", "title": "join() of the writer can dead-lock", "statement": "If the worker dies on a task after join() has checked that it is alive while further tasks are queued, join() never returns in any continuation; without failing tasks join() always can complete.", "quantifier": "all continuations of the schedule", "why_tests_cant": "a race; deadlock is a property of infinite runs", "anchors": ["qtune/storage.py:AsynchronousHDF5Writer.join", "qtune/storage.py:_writer_target"]}
{"id": "C41", "title": "Reloading a SubsetTuner whose target contains a parameter without tolerance or desired value fails", "statement": "Constructor arguments produced by to_hdf5 of a SubsetTuner are accepted by the constructor iff every row of the target is 'relevant' (has no NaN in a used column); otherwise reconstruction raises AssertionError although the original construction succeeded.", "quantifier": "all targets", "why_tests_cant": "all NaN patterns of the target table", "anchors": ["qtune/parameter_tuner.py:ParameterTuner.__init__", "qtune/parameter_tuner.py:SubsetTuner.to_hdf5"]}
{"id": "C42", "title": "Save and reload preserve the behaviour of each component", "statement": "For SubsetTuner (fully relevant target), NewtonSolver, ForwardingSolver, KalmanGradientEstimator: constructing from the saved arguments yields the identical state. For SensingDotTuner the tuned voltages and the failure flag are lost, for the finite-difference estimator reconstruction fails as soon as a measurement is stored, for NelderMeadSolver the stored state name is rejected, for Autotuner the storage path gets another time stamp appended.", "quantifier": "all component states", "why_tests_cant": "all internal states", "anchors": ["qtune/parameter_tuner.py:SensingDotTuner.to_hdf5", "qtune/gradient.py:FiniteDifferencesGradientEstimator.__init__", "qtune/solver.py:NelderMeadSolver.to_hdf5", "qtune/autotuner.py:Autotuner.__init__"]}
{"id": "C43", "title": "History rows follow the voltages", "statement": "Appending autotuner states to a History yields a new row iff the voltages differ from those of the latest row; rows are never reordered or removed, earlier rows never change, there is exactly one reload path per row and it is the last saved file for these voltages.", "quantifier": "all sequences of appended autotuner states", "why_tests_cant": "unbounded histories", "anchors": ["qtune/history.py:History.append_autotuner"]}
{"id": "C44", "title": "History loses an evaluation when the voltages do not change", "statement": "When the tuner starts a new round at the same voltages, the row's start index is not reset, so the new values of tuners below the previously reached index are not recorded; otherwise every evaluated tuner's latest values are in the row.", "quantifier": "all sequences of appended states", "why_tests_cant": "needs a particular history", "anchors": ["qtune/history.py:History.append_autotuner", "qtune/history.py:History.read_autotuner_to_data_frame"]}
{"id": "C45", "title": "A lead transition scan restores the gates unless it is interrupted", "statement": "LeadTransition.evaluate leaves all gate voltages as it found them when it returns normally, for any shifts and any number of measurements; if a measurement raises, the shifted voltages stay set.", "quantifier": "all shifts, gates, numbers of measurements, every point where measure() may raise", "why_tests_cant": "every crash point", "anchors": ["qtune/evaluator.py:LeadTransition.evaluate"]}
{"id": "C46", "title": "Averaging evaluator", "statement": "AveragingEvaluator returns per parameter the mean over the non-NaN repetitions and NaN iff all repetitions are NaN (or infinities of both signs occur); for finite values the mean lies between minimum and maximum of the repetitions.", "quantifier": "all numbers of repetitions, all values", "why_tests_cant": "continuous inputs, any count", "anchors": ["qtune/evaluator.py:AveragingEvaluator.evaluate"]}
{"id": "C47", "title": "Moving average and transition finder", "statement": "moving_average_filter keeps the length (width at most the length, otherwise it raises), averages the last width values, maps constant data to itself and stays between minimum and maximum of the data; nth_diff has length len-n and contains data[i]-data[i+n]; the transition index lies inside the data, half a width behind the first place where |data[i]-data[i+w]| is largest among all places but the last.", "quantifier": "all arrays, all widths", "why_tests_cant": "all lengths and values", "anchors": ["qtune/util.py:moving_average_filter", "qtune/util.py:nth_diff", "qtune/util.py:new_find_lead_transition_index"]}
{"id": "C48", "title": "Index translation to MATLAB", "statement": "transform_index maps every non-negative integer to the MATLAB index of the same element and every slice without start and with positive step to the same elements; for every negative integer -k it addresses the element before the Python one (off by one), and every slice with a start raises NameError.", "quantifier": "all array lengths, all integers, all slices", "why_tests_cant": "all integers and lengths", "anchors": ["qtune/mat2py.py:transform_index", "qtune/mat2py.py:_transform_int", "qtune/mat2py.py:_transform_slice"]}
{"id": "C49", "title": "MATLAB voltage guards", "statement": "set_qqd_gate_voltages changes the hardware only if every new voltage is within [-1.3, 0] V and every gate moves by at most 10 mV, otherwise it errors and changes nothing; set_qqd_gate_voltages_abs_limit accepts new voltages below -1.3 V; set_gates_v_pretuned accepts arbitrarily negative deviations of the sensing dot gates.", "quantifier": "all current and new voltage vectors", "why_tests_cant": "safety claim for all real inputs", "anchors": ["qtune/MATLAB/+qtune/set_qqd_gate_voltages.m", "qtune/MATLAB/+qtune/set_qqd_gate_voltages_abs_limit.m", "qtune/MATLAB/+qtune/set_gates_v_pretuned.m"]}
{"id": "C50", "title": "Target changes", "statement": "change_targets modifies exactly the named categories and parameters of the named tuners and nothing else, and resets the position in the hierarchy to 0 with nothing pending.", "quantifier": "all targets and changes", "why_tests_cant": "all change sets", "anchors": ["qtune/solver.py:Solver.target", "qtune/autotuner.py:Autotuner.change_targets"]}
{"id": "C51", "title": "Nothing happens while gate names are inconsistent", "statement": "An iterate() evaluates, computes or sets something only if the names of the pending voltages, of every tuner's last voltages, of every solver's position and of every Newton gradient estimator's position are gates of the experiment, and every tunable gate of a SubsetTuner occurs in its estimators' positions; conversely, if the names are coherent, nothing raises, no pending voltage is NaN and tuning is not complete, iterate() succeeds.", "quantifier": "all hierarchies, experiments and histories", "why_tests_cant": "a conjunction over arbitrarily many tuners, estimators and gates; tests cover a few hand-made hierarchies", "anchors": ["qtune/autotuner.py:Autotuner.ready_to_tune", "qtune/autotuner.py:Autotuner.iterate"]}
{"id": "C52", "title": "A finite-difference parameter without desired value blocks the Newton solver", "statement": "If some parameter of the target has desired = NaN and its estimator has no gradient yet (a fresh finite-difference estimator), then after any sequence of updates, suggestions, moves and restarts the estimator still has none, a Newton step always raises, and every successful suggestion is a measurement request; so the solver never makes a step.", "quantifier": "all estimators whose restart does not create a gradient, all histories", "why_tests_cant": "an invariant over unbounded histories; tests never combine NaN targets with finite differences", "anchors": ["qtune/solver.py:NewtonSolver.suggest_next_position", "qtune/solver.py:NewtonSolver.update_after_step", "qtune/gradient.py:FiniteDifferencesGradientEstimator"]}
{"id": "C53", "title": "A finite-difference gradient is never refreshed", "statement": "Once a finite-difference estimator has an estimate, no update, request or restart ever changes its state and it never asks for a measurement again.", "quantifier": "all sequences of calls", "why_tests_cant": "universal over unbounded call sequences", "anchors": ["qtune/gradient.py:FiniteDifferencesGradientEstimator"]}
{"id": "C54", "title": "A failed finite-difference evaluation is final", "statement": "If the computation of the finite-difference gradient fails, the estimator never gets a gradient in any continuation, and the asymmetric one raises at every later request.", "quantifier": "all sequences of calls after the failure", "why_tests_cant": "universal over unbounded continuations of a failure tests never provoke", "anchors": ["qtune/gradient.py:FiniteDifferencesGradientEstimator.update", "qtune/gradient.py:FiniteDifferencesGradientEstimator.require_measurement"]}
{"id": "C55", "title": "The Kalman gradient does not depend on the order of the measurements", "statement": "Without process noise, with alpha = 1 and F = 1, and with an invertible measurement covariance in every call, every permutation of a sequence of updates gives the same gradient and the same covariance.", "quantifier": "all dimensions, all invertible initial covariances, all histories and permutations", "why_tests_cant": "unbounded histories and all permutations of real inputs", "anchors": ["qtune/kalman_gradient.py:KalmanGradient.update"]}
{"id": "C56", "title": "Kalman error law for exact measurements", "statement": "If all measured differences are those of a function with constant gradient g, then after any sequence of updates x_N - g = P_N P_0^-1 (x_0 - g).", "quantifier": "all dimensions, true gradients, initial guesses, invertible initial covariances and histories", "why_tests_cant": "unbounded histories of real matrices", "anchors": ["qtune/kalman_gradient.py:KalmanGradient.update"]}
{"id": "C57", "title": "What the absence of a Kalman measurement request means", "statement": "With a uniform maximum covariance M, no request means that v P v^T <= M |v|^2 in every direction, and a request is a step along the unit direction of the largest variance, which exceeds M. With maxima per gate, no request only bounds the variance of a gate by sqrt(n) times its maximum; the variance of a gate can exceed its maximum without a request.", "quantifier": "all covariances with any orthonormal eigenbasis, all maxima, step widths and positions", "why_tests_cant": "all real matrices", "anchors": ["qtune/gradient.py:KalmanGradientEstimator.require_measurement"]}
{"id": "C58", "title": "Kalman measurement requests end", "statement": "Along any sequence of granted requests with measurement variance at most rmax, the number N of requests satisfies N M^2 emin^2 / (M emax^2 + rmax) <= tr P_0.", "quantifier": "all dimensions, initial covariances, histories of granted requests", "why_tests_cant": "unbounded histories", "anchors": ["qtune/gradient.py:KalmanGradientEstimator.require_measurement", "qtune/kalman_gradient.py:KalmanGradient.update"]}
{"id": "C59", "title": "Kalman requests with tuned parameters", "statement": "With a tuned Jacobian, no request means that the variance along each basis vector of its null space is at most the largest maximum; a request is a step along the basis vector of largest variance, scaled gate by gate with epsilon. With uniform epsilon it does not change the tuned parameters to first order. With different step widths it does, and other directions of the null space may exceed the maximum without a request.", "quantifier": "all covariances, null-space bases, step widths and positions", "why_tests_cant": "all real matrices", "anchors": ["qtune/gradient.py:KalmanGradientEstimator.require_measurement"]}
{"id": "C60", "title": "Nelder-Mead step coefficients", "statement": "With n gates, b the centroid of all points but the worst w, the suggested point is b + a(b-w) with a=(n-1)/(n+1) for reflection, (2n-1)/(n+1) for expansion, (n-2)/(2(n+1)) for outside and -(n+2)/(2(n+1)) for inside contraction (the textbook method has 1, 2, 1/2, -1/2: the code's centroid includes the worst point); shrinking suggests midpoints to the best point. With one gate the reflected point is the best point itself.", "quantifier": "all dimensions, simplices, states", "why_tests_cant": "all real simplices in every dimension", "anchors": ["qtune/solver.py:NelderMeadSolver.suggest_next_position"]}
{"id": "C61", "title": "Nelder-Mead collapse after a failed expansion", "statement": "If expansion was entered and no further measured point is better than the reflected point, the simplex consists of copies of the reflected point after n+1 accepted updates, and from then on exactly this point is suggested: the solver is stuck.", "quantifier": "all dimensions, all measured values", "why_tests_cant": "property of unbounded runs", "anchors": ["qtune/solver.py:NelderMeadSolver.update_after_step", "qtune/solver.py:NelderMeadSolver.suggest_next_position"]}
{"id": "C62", "title": "Nelder-Mead stays inside the simplex box", "statement": "After inside contraction or shrinking was entered, a closed loop (every suggestion is measured and fed back) never suggests a point outside a box that contained the simplex.", "quantifier": "all boxes, simplices, measured values, numbers of rounds", "why_tests_cant": "property of unbounded runs over reals", "anchors": ["qtune/solver.py:NelderMeadSolver.suggest_next_position", "qtune/solver.py:NelderMeadSolver.update_after_step"]}
{"id": "C63", "title": "Nelder-Mead internal errors are unreachable from scratch", "statement": "A solver created by from_scratch with at least one gate, after any sequence of calls: with a full simplex every suggestion succeeds, and updates fail only for positions or values without any known label. A solver constructed with a full simplex and default state raises RuntimeError at the first suggestion.", "quantifier": "all sequences of calls", "why_tests_cant": "reachability over unbounded histories", "anchors": ["qtune/solver.py:NelderMeadSolver.from_scratch", "qtune/solver.py:NelderMeadSolver.__init__", "qtune/solver.py:NelderMeadSolver.suggest_next_position", "qtune/solver.py:NelderMeadSolver.update_after_step"]}
{"id": "C64", "title": "Unmeasurable points are optimal for the default cost", "statement": "With the default cost function a point all of whose values are NaN has the least possible cost and stays in a full simplex forever.", "quantifier": "all histories after the point was accepted", "why_tests_cant": "property of infinite runs", "anchors": ["qtune/solver.py:NelderMeadSolver.__init__", "qtune/solver.py:NelderMeadSolver.update_after_step"]}
{"id": "C65", "title": "NelderMeadSolver cannot be used in a tuner", "statement": "Every computation of the next voltages by a SubsetTuner or SensingDotTuner with a NelderMeadSolver raises TypeError unless the last evaluation failed; restarting and changing targets raise AttributeError; constructing from saved arguments raises ValueError for every state.", "quantifier": "all tuner and solver states", "why_tests_cant": "all states", "anchors": ["qtune/solver.py:NelderMeadSolver.suggest_next_position", "qtune/solver.py:NelderMeadSolver.to_hdf5", "qtune/parameter_tuner.py:SubsetTuner.get_next_voltages"]}
{"id": "C66", "title": "A storage file cannot be written twice", "statement": "Saving into a file that already contains the name or one of the reserved names raises, whatever the object is.", "quantifier": "all existing files, names, objects and reserved objects", "why_tests_cant": "all contents of existing files", "anchors": ["qtune/storage.py:to_hdf5"]}
{"id": "C67", "title": "Self references are saved but cannot be loaded", "statement": "An instance that refers to itself is saved without error, but loading the file exceeds the recursion limit, whatever the limit is.", "quantifier": "all recursion limits", "why_tests_cant": "all limits", "anchors": ["qtune/storage.py:_to_hdf5", "qtune/storage.py:_from_hdf5"]}
{"id": "C68", "title": "Dict keys are paths", "statement": "A dict with a key 'a/b' is loaded as a dict with a nested dict.", "quantifier": "all values", "why_tests_cant": "all values", "anchors": ["qtune/storage.py:_to_hdf5"]}
{"id": "C69", "title": "Asynchronous writer: result independent of the schedule, bounded work", "statement": "Every interleaving of user thread and worker comes to rest after at most 8 steps per call, whatever fails; if no task fails and both threads get enough turns, all calls return, the answers (accepted, rejected, joined, restarted) are the same in all schedules and all accepted tasks are written; at rest with failures either all calls returned or join() waits forever.", "quantifier": "all call sequences, all schedules, all failure patterns", "why_tests_cant": "interleavings are not enumerable by tests", "anchors": ["qtune/storage.py:AsynchronousHDF5Writer", "qtune/storage.py:_writer_target"]}
{"id": "C70", "title": "The writer loses accepted tasks silently", "statement": "The claim that join() reports every accepted but unwritten task is false: after the worker died on a failing task write() still accepts tasks until the thread has ended, and join() returns normally (with a warning only) although they were never written.", "quantifier": "existence of a schedule", "why_tests_cant": "depends on a race between is_alive() and the death of the worker", "anchors": ["qtune/storage.py:AsynchronousHDF5Writer.write", "qtune/storage.py:AsynchronousHDF5Writer.join"]}
{"id": "C71", "title": "Voltage requests of the quadruple dot stay in the window", "statement": "Starting inside [-1.3, 0] V, after any sequence of n finite requests through SMTuneQQD.set_gate_voltages all gates are inside [-1.3, 0] V, no gate moved by more than n * 10 mV and no other channel changed; a request is accepted iff every gate (also the ones not asked for) ends in limits.", "quantifier": "all request sequences, all voltages", "why_tests_cant": "safety claim over all sequences and real inputs", "anchors": ["qtune/sm_tune_qqd.py:SMTuneQQD.set_gate_voltages", "qtune/MATLAB/+qtune/set_qqd_gate_voltages.m"]}
{"id": "C72", "title": "One gate out of the window blocks all gates", "statement": "If one gate is more than 10 mV outside [-1.3, 0] V, no sequence of finite requests moves any gate.", "quantifier": "all request sequences, all voltages", "why_tests_cant": "all sequences", "anchors": ["qtune/sm_tune_qqd.py:SMTuneQQD.set_gate_voltages", "qtune/MATLAB/+qtune/set_qqd_gate_voltages.m"]}
{"id": "C73", "title": "NaN passes the voltage guard", "statement": "The claim that the guard only lets voltages in [-1.3, 0] V and steps of 10 mV through is false: a NaN request is accepted, and after it a step of any size inside the window.", "quantifier": "all states in the window, all gates, all target voltages", "why_tests_cant": "symbolic in the voltages", "anchors": ["qtune/MATLAB/+qtune/set_qqd_gate_voltages.m"]}
{"id": "C74", "title": "Guards of the sensing dot gates", "statement": "change_sensing_dot_gates accepts exactly steps of at most 21 mV that end within 70 mV of the pretuned values, sets both gates, and otherwise changes nothing; retune_qpc leaves its gate within 5 mV of the start and within 100 mV of the pretuned value or puts everything back to the pretuned point with an error. The claim that retune_qpc moves to the place of the extremum in the scan is false: the distance from the centre is scaled by 5 mV / range.", "quantifier": "all voltages and positions", "why_tests_cant": "safety claim for all real inputs", "anchors": ["qtune/MATLAB/+qtune/change_sensing_dot_gates.m", "qtune/MATLAB/+qtune/retune_qpc.m"]}
{"id": "C75", "title": "find_lead_transition is not repeatable", "statement": "find_lead_transition overwrites the array of the caller with differences, so a second call on the same array can give another answer; in the transition index the last difference is never looked at and width 0 always gives index 0; otherwise the result lies inside the scan.", "quantifier": "all arrays of the given form", "why_tests_cant": "aliasing of arguments; symbolic in the data", "anchors": ["qtune/util.py:find_lead_transition", "qtune/util.py:new_find_lead_transition_index"]}
{"id": "C76", "title": "Position of a step", "statement": "For a noise free step the transition index is within half a filter width of the step; the steepest point found lies inside the scanned window; the MATLAB function at_diff computes the same differences as nth_diff with the opposite sign.", "quantifier": "all step positions, heights, widths, lengths", "why_tests_cant": "all lengths and values", "anchors": ["qtune/util.py:new_find_lead_transition_index", "qtune/util.py:find_lead_transition", "qtune/util.py:nth_diff"]}
{"id": "C77", "title": "LeadTransition: values, labels and scan", "statement": "Every value returned by LeadTransition lies on the scan axis of the first measurement, at the first place where the data change most over a fixed number of points (plus half of it), with a constant error; it returns whenever the data have the announced length. The claim that position_X is the position in the scan of gate X is false for the default arguments: every value carries the name of the gate that was shifted, not of the one that was swept. The claim that the points compared are the transition width of 0.2 mV apart is false as well: they are 0.4 mV apart up to one point, because the scan extends its range to both sides.", "quantifier": "all data, scan ranges, numbers of points and measurements", "why_tests_cant": "all arrays and ranges", "anchors": ["qtune/evaluator.py:LeadTransition.evaluate", "qtune/evaluator.py:LeadTransition.process_raw_data", "qtune/evaluator.py:LeadTransition.__init__"]}
{"id": "C78", "title": "A single repetition is reported as exact", "statement": "AveragingEvaluator with one repetition reports variance 0 for every finite value whatever the error of the inner evaluator; exceptions of the inner evaluator end the call at once and a parameter it does not deliver raises KeyError.", "quantifier": "all inner evaluators and states", "why_tests_cant": "all inner evaluators", "anchors": ["qtune/evaluator.py:AveragingEvaluator.evaluate"]}
{"id": "C79", "title": "Failed fits", "statement": "A RuntimeError of the fit (scipy without convergence, EvaluationError) gives NaN value and error in InterDotTCByLineScan and NewLoadTime, any other exception and every exception of the measurement passes through; the two lead tunnel time evaluators let every exception through.", "quantifier": "all outcomes of measurement and fit", "why_tests_cant": "exhaustive over exception kinds", "anchors": ["qtune/evaluator.py:InterDotTCByLineScan.evaluate", "qtune/evaluator.py:NewLoadTime.evaluate", "qtune/evaluator.py:LeadTunnelTimeByLeadScan.evaluate"]}
{"id": "C80", "title": "Sensing dot scans and the flank option", "statement": "SensingDot1D.evaluate never returns (numpy.polynomial has no poly1d). SensingDot2D returns a point of the scan at least a 25th of the line away from both ends, raises ValueError for lines of fewer than 25 points, and with rising_flank=True chooses the place where the signal falls most, the opposite of SensingDot1D.", "quantifier": "all scans", "why_tests_cant": "all arrays", "anchors": ["qtune/evaluator.py:SensingDot1D.evaluate", "qtune/evaluator.py:SensingDot2D.process_raw_data"]}
{"id": "C81", "title": "Range checks of the quadruple dot evaluators", "statement": "QQDResp returns a position iff it is visible and inside its bounds; without max_position every position becomes NaN or -infinity (the default maximum is -infinity). QQDLine returns mean and variance of the mean of the fitted widths, NaN outside the window or if one width is NaN.", "quantifier": "all positions, visibilities, bounds", "why_tests_cant": "symbolic in the values", "anchors": ["qtune/sm_tune_qqd.py:QQDResp.evaluate", "qtune/sm_tune_qqd.py:QQDResp.__init__", "qtune/sm_tune_qqd.py:QQDLine.process_raw_data"]}
{"id": "C82", "title": "A gradient that is not known yet breaks the history", "statement": "extract_gradients_from_hierarchy stores the class pandas.Series for an estimator without estimate or covariance, so appending such an autotuner raises TypeError. The reload path has been registered before, so after the next successful append there is one row but two paths and the first row reloads the wrong file.", "quantifier": "all autotuner states with an unready estimator, all later states", "why_tests_cant": "order of registration and failure", "anchors": ["qtune/history.py:History.append_autotuner", "qtune/history.py:extract_gradients_from_hierarchy"]}
{"id": "C83", "title": "A row created before the first evaluation blocks further appends", "statement": "If a new row is created for a state in which no tuner was evaluated, the row has no tuner index and every later append at the same voltages raises ValueError after replacing the reload path.", "quantifier": "all histories and states", "why_tests_cant": "needs a particular sequence", "anchors": ["qtune/history.py:History.append_autotuner", "qtune/history.py:History.read_autotuner_to_data_frame"]}
{"id": "C84", "title": "Evaluator data and rows get out of step", "statement": "Appending a state writes the data of the evaluators of its evaluated tuners into the newest row of evaluator data if the voltages are the same, into a new row otherwise: the entry of an evaluator is the one given last, other entries and rows stay. A row created for a state in which no tuner was evaluated adds no row of evaluator data, so from then on the evaluator data belong to other rows.", "quantifier": "all histories and states", "why_tests_cant": "needs a particular sequence", "anchors": ["qtune/history.py:History.append_autotuner", "qtune/history.py:read_evaluator_data_from_autotuner"]}
{"id": "C85", "title": "The main window with its default logger never tunes", "statement": "If the logger is given by its name, as by default, no sequence of button presses makes the worker call iterate, and neither Start nor Step returns.", "quantifier": "all press sequences, thread interleavings and outcomes", "why_tests_cant": "needs all interleavings of two threads", "anchors": ["qtune/gui.py:GUI.__init__", "qtune/gui.py:GUI.start", "qtune/gui.py:GUI.step", "qtune/gui.py:GUI._work"]}
{"id": "C86", "title": "Steps are never multiplied", "statement": "If Start is never pressed there are at most as many iterations as presses of Step that returned; a press during an iteration may be lost.", "quantifier": "all press sequences without Start, thread interleavings and outcomes", "why_tests_cant": "needs all interleavings of two threads", "anchors": ["qtune/gui.py:GUI.step", "qtune/gui.py:GUI._work"]}
{"id": "C87", "title": "Pause stops the tuning", "statement": "After Pause has returned and without a further Start or Step at most one more iteration is begun.", "quantifier": "all press sequences, thread interleavings and outcomes", "why_tests_cant": "needs all interleavings of two threads", "anchors": ["qtune/gui.py:GUI.pause", "qtune/gui.py:GUI._work"]}
{"id": "C88", "title": "When closing the window returns", "statement": "During continuous tuning close does not return while all iterations succeed and the tuning is not complete; once an iteration fails or the tuning is complete it returns after a bounded number of turns of the worker.", "quantifier": "all schedules and outcomes", "why_tests_cant": "about infinite runs and all interleavings", "anchors": ["qtune/gui.py:GUI.close", "qtune/gui.py:GUI._work"]}
{"id": "C89", "title": "Failures pause the worker and never end it", "statement": "Without close or restart_thread the worker lives for ever; after a failed iteration it does not iterate again unless asked to, and it may overwrite such a request made meanwhile.", "quantifier": "all press sequences, thread interleavings and outcomes", "why_tests_cant": "needs all interleavings of two threads", "anchors": ["qtune/gui.py:GUI._work", "qtune/gui.py:GUI.pause", "qtune/gui.py:GUI.start"]}
{"id": "C90", "title": "Run numbers of the windows", "statement": "The entered run number is moved into the range of stored rows, if there are any; the raw data window shows the run before the number and for 0 the last one; the reload window takes the run itself and at first shows 1 while using 0.", "quantifier": "all numbers and histories", "why_tests_cant": "off by one depends on the row", "anchors": ["qtune/gui.py:EvaluatorWidget.tune_run_number", "qtune/gui.py:ReloadWidget.tune_run_number"]}
{"id": "C91", "title": "Which points a finite-difference estimator asks for", "statement": "The first request is one step of its width along the first gate, a symmetric estimator then mirrors every other measured point at its position, and all other requests lie at the position plus the orthogonal direction in units of the step widths; more than n measurements of an asymmetric estimator make the next request raise RuntimeError.", "quantifier": "all positions, step widths, stored measurements, requested gates", "why_tests_cant": "the requests depend on unboundedly many states", "anchors": ["qtune/gradient.py:FiniteDifferencesGradientEstimator.require_measurement"]}
{"id": "C92", "title": "When a finite-difference gradient is computed and from what", "statement": "An asymmetric estimator of n gates computes its gradient exactly at its measurement n+1, from all of them with the latest first; a symmetric one at measurement 2n, not counting the one that told it its position; before that there is no gradient.", "quantifier": "all dimensions, measurements, known or unknown start", "why_tests_cant": "counts depend on the dimension and on two flags", "anchors": ["qtune/gradient.py:FiniteDifferencesGradientEstimator.update"]}
{"id": "C93", "title": "What a failing Newton update leaves behind", "statement": "If update_after_step raises, target, position and values are unchanged, the estimators before the failing one have taken the measurement, the failing one keeps what it did, the later ones have not seen it; the constructor accepts exactly as many estimators as parameters, not more parameters than gates, on known gates.", "quantifier": "all solvers, estimators and failures", "why_tests_cant": "needs failures at every position", "anchors": ["qtune/solver.py:NewtonSolver.update_after_step", "qtune/solver.py:NewtonSolver.__init__"]}
{"id": "C94", "title": "Decisions of the Nelder-Mead solver", "statement": "Missing points are requested at the first point plus an orthogonal direction in units of the span; a complete sorted simplex expands, accepts, contracts outside or inside exactly in the four cost ranges, an accepted point replaces the worst one, and every accepted update moves the solver to the measured point.", "quantifier": "all simplices, cost functions and measurements", "why_tests_cant": "cases over real costs with ties", "anchors": ["qtune/solver.py:NelderMeadSolver.update_after_step", "qtune/solver.py:NelderMeadSolver.suggest_next_position"]}
{"id": "C95", "title": "The first tuner of a hierarchy reaches its target", "statement": "With affine parameters whose gradients on the n gates are linearly independent, exact numerical routines and unlimited steps, a SubsetTuner with a NewtonSolver and fresh finite difference estimators at the head of a hierarchy is finished after at most 3n+4 calls of Autotuner.iterate; none raises, the target is met, no other gate has moved and no other tuner has changed.", "quantifier": "all devices, gates, parameters, targets, step widths, starting voltages and remaining tuners", "why_tests_cant": "needs all affine devices and the whole chain of objects", "anchors": ["qtune/autotuner.py:Autotuner.iterate", "qtune/parameter_tuner.py:SubsetTuner", "qtune/solver.py:NewtonSolver", "qtune/gradient.py:FiniteDifferencesGradientEstimator"]}
{"id": "C96", "title": "A triangular hierarchy completes or an already tuned tuner fails", "statement": "In a hierarchy of such tuners in which no tuner has gates, parameters or influence in common with an earlier one, a bounded number of calls of iterate ends in one of two ways: all targets are met and tuning is complete, or an EvaluationError escapes from the evaluation of a tuner below the last one whose target is met and which started without gradients. If all tuners below the last one start with their gradients, it completes.", "quantifier": "all numbers of tuners, devices, targets, starting voltages", "why_tests_cant": "unbounded hierarchies and real-valued devices", "anchors": ["qtune/autotuner.py:Autotuner.iterate", "qtune/gradient.py:FiniteDifferencesGradientEstimator.update", "qtune/util.py:calculate_gradient_non_orthogonal"]}
{"id": "C97", "title": "A tuned tuner fails when it is evaluated again (violated in the code)", "statement": "Re-evaluating a tuner whose target is met should not raise. It does: a tuner with one gate and no gradient that is tuned from the start stores its only point twice after a later tuner has moved its gates, the finite differences are degenerate, and iterate raises EvaluationError.", "quantifier": "all such pairs of tuners", "why_tests_cant": "needs a later tuner to act between two evaluations of an unfinished estimator", "anchors": ["qtune/gradient.py:FiniteDifferencesGradientEstimator.update", "qtune/autotuner.py:Autotuner.iterate"]}
{"id": "C98", "title": "Linear algebra helpers of util.py on exact library routines", "statement": "If numpy.linalg.inv inverts regular matrices and raises LinAlgError for singular ones, calculate_gradient_non_orthogonal returns, for n+1 points or n pairs of points over n gates, the gradient that reproduces every difference of the values, and a covariance C with s^T C t = variance of the difference for equal steps s = t and 0 for different steps; points in a hyperplane give EvaluationError. If sympy nullspace is right, get_orthogonal_vector returns a vector of length one orthogonal to the given ones, ValueError iff there is none. With these helpers and a least squares routine that minimises the residual a triangular hierarchy completes or fails as in C96.", "quantifier": "all numbers of gates, all measurement points, values and variances, all library routines with the stated property", "why_tests_cant": "tests use a few random points; the degenerate case and the composition with the loop are not covered", "anchors": ["qtune/util.py:calculate_gradient_non_orthogonal", "qtune/util.py:get_orthogonal_vector", "qtune/gradient.py:FiniteDifferencesGradientEstimator", "qtune/solver.py:NewtonSolver.suggest_next_voltage"]}
{"id": "C99", "title": "Construction of targets", "statement": "make_target creates one row for each parameter of the first Series among desired, maximum, minimum, tolerance; a cell holds what the argument says about the parameter, NaN if it is a Series without it; a rescaling factor that is not given is 1. Parameters that occur only in other arguments are dropped silently. RuntimeError if none of the four is a Series, KeyError iff a Series shares no parameter with the table.", "quantifier": "all combinations of scalars and Series with any labels", "why_tests_cant": "tests always give the same labels to all arguments", "anchors": ["qtune/solver.py:make_target"]}
{"id": "C100", "title": "Reloading, restarting and changing targets while the worker iterates", "statement": "The worker thread iterates on the same Autotuner on which the window reloads voltages, restarts or changes targets, without a lock. Under every interleaving only tuners of the hierarchy are called, no NaN is sent to the experiment, and every voltage vector iterate sends was proposed by a tuner before. If the user acts only between two iterations, every run has the effect of the calls one after the other, and complete tuning means that every tuner was found tuned since the last change. Otherwise: a reload during an evaluation can leave the tuning complete although nothing was evaluated at the reloaded voltages; a reload while the next voltages are computed is undone by the next iteration; a reload while pending voltages are sent makes iterate fail with AttributeError or TypeError.", "quantifier": "all interleavings, all environments (experiment, tuners, writer), all sequences of user actions", "why_tests_cant": "an interleaving cannot be forced from a unit test, and there are infinitely many", "anchors": ["qtune/autotuner.py:Autotuner.iterate", "qtune/autotuner.py:Autotuner.restart", "qtune/autotuner.py:Autotuner.change_targets", "qtune/gui.py:ReloadWidget.reload_voltages"]}
{"id": "C101", "title": "Load time of the fit", "statement": "If curve_fit returns a least squares minimum within its bounds, data that follow offset + height*exp(-x/c) at three different points or more with height != 0 and 2 <= c <= 300 give parameter_time_load = c and error 0; on the device simulated in basic_dqd the reported time is 15+exp(-v1-v2) whenever that is at most 300. Every fit that keeps its bounds reports a time in [2, 300], and the second attempt with the stored starting value never happens. A signal without decay gives, depending on the optimiser, any value in [2, 300] (never NaN) and error NaN. A fit that ends at a negative time, against its bounds, is repeated from twenty times the stored time and only the second result counts.", "quantifier": "all axes with three different points, all curve parameters, all optimisers with the stated property", "why_tests_cant": "tests run one optimiser on one curve; that the parameters are determined by any three points is a statement about all curves", "anchors": ["qtune/evaluator.py:NewLoadTime.process_raw_data", "qtune/evaluator.py:func_load_time", "qtune/basic_dqd.py:load_simulation"]}
{"id": "C102", "title": "Shape of the lead tunnelling curves", "statement": "func_lead_times_v1 takes offset-height/2 at begin_rise, offset+height/2 at begin_fall and offset-height/2 half a period later; it is continuous at begin_fall iff begin_fall-begin_rise is half a period and at begin_rise iff the last point of the axis is (begin_fall-begin_rise) + half a period; on the axis the evaluator uses over one full period it therefore jumps at begin_rise for every choice of the other parameters. func_lead_times_v2 returns to the low level half a period after begin_fall iff t_fall = t_rise, and starts the rise on the low level iff begin_fall is half a period plus twice the begin of the rise. The second version does not continue the fall of the period before, except for one value of the begin of the fall.", "quantifier": "all curve parameters with non-zero times", "why_tests_cant": "a discontinuity between sample points is not visible on sampled data", "anchors": ["qtune/evaluator.py:func_lead_times_v1", "qtune/evaluator.py:func_lead_times_v2", "qtune/evaluator.py:LeadTunnelTimePrefitVersion.process_raw_data"]}
{"id": "C103", "title": "Weights of the second fits", "statement": "InterDotTCByLineScan: the standard deviations are .1 on the nine points around position_point, 10 on ten points before and 1 elsewhere if position_point is at least 15 and at most n-6; for position_point below 5 nearly all points get 10. position_point is n*(2*centre-position)/(4*range) points away from the transition, so the emphasised range is at the transition only if position = 2*centre. LeadTunnelTimePrefitVersion: for begin times within the 4 microseconds of the pulse the weights do not depend on them, both ranges are the points 3 to 2+int(.35 n).", "quantifier": "all numbers of points, all positions and begin times", "why_tests_cant": "the fit usually converges anyway, a test of the result does not see which points were emphasised", "anchors": ["qtune/evaluator.py:InterDotTCByLineScan.process_raw_data", "qtune/evaluator.py:LeadTunnelTimePrefitVersion.process_raw_data"]}
{"id": "C104", "title": "Sign of the tunnel coupling", "statement": "The curve of func_inter_dot_coupling does not change when offset, height and width are replaced by offset+height, -height, -width. For every least squares fit and every data for which it reports a tunnel coupling there is a least squares fit that reports the opposite number with the same error; the evaluator does not take the absolute value. The coupling is the width of the second fit, which starts from the first one; the error is the mean square deviation over the last seven tenths of the points relative to the height, times 20000.", "quantifier": "all data, all optimisers that return a minimum", "why_tests_cant": "the sign depends on the path of the optimiser", "anchors": ["qtune/evaluator.py:func_inter_dot_coupling", "qtune/evaluator.py:InterDotTCByLineScan.evaluate"]}
{"id": "C105", "title": "Column names of the history and the getters", "statement": "The column names built for gates, parameters, variances, gradients, covariances and the tuner index are different for different columns if no name contains '#', except that a gate, a parameter and the index may carry the same bare name. get_gradients(p) returns exactly the columns of gradients of every parameter whose name ends with p, plus covariances whose second gate starts with 'grad', for gates made of word characters; so it is the gradient of p if no other parameter ends with p, no gate starts with 'grad' and gates consist of word characters. get_gradient_variances(p) returns the diagonal covariances of all parameters ending with p. get_gradient_covariances(p) never returns a number: it raises or every column is empty.", "quantifier": "all sets of names, all parameters", "why_tests_cant": "tests use a few names of which none is the end of another one, and do not look at the covariances", "anchors": ["qtune/history.py:History.get_gradients", "qtune/history.py:History.get_gradient_variances", "qtune/history.py:History.get_gradient_covariances", "qtune/history.py:History.read_autotuner_to_data_frame"]}
{"id": "C106", "title": "What an evaluator keeps when it is saved and loaded", "statement": "Every evaluator that was made by its constructor and then evaluated any number of times can be saved and loaded: the stored dictionary is accepted by the constructor, and the loaded evaluator has the same attributes, except that the sampling rate of LeadTunnelTimePrefitVersion, the transition width of LeadTransition and the flank of SensingDot1D and SensingDot2D return to their defaults; a second saving and loading changes nothing further. With another sampling rate or the falling flank the loaded evaluator differs. A Measurement comes back with its name and options; a QQDMeasurement can never be saved.", "quantifier": "all 17 evaluator classes, all constructor arguments, all sequences of evaluations", "why_tests_cant": "there are tests of the storage for a few classes with default arguments; the lost arguments have the default there", "anchors": ["qtune/evaluator.py:Evaluator.to_hdf5", "qtune/evaluator.py:FittingEvaluator.to_hdf5", "qtune/evaluator.py:LeadTunnelTimePrefitVersion.to_hdf5", "qtune/evaluator.py:LeadTransition.to_hdf5", "qtune/evaluator.py:SensingDot1D.to_hdf5", "qtune/evaluator.py:SensingDot2D.to_hdf5", "qtune/evaluator.py:AveragingEvaluator.to_hdf5", "qtune/sm_tune_qqd.py:QQDResp.to_hdf5", "qtune/sm_tune_qqd.py:QQDMeasurement", "qtune/experiment.py:Measurement.to_hdf5"]}
{"id": "C107", "title": "Limited step sizes in the whole loop", "statement": "A SubsetTuner at the head of a hierarchy with affine parameters, known linearly independent gradients, step size limit m > 0 and at least one step per evaluation: if the target can be met exactly at a distance of at most M*m, it is met after at most 3M+1 calls of Autotuner.iterate, none of which raises; the voltages stop on the straight line of the first step, not further from the start than the shortest solution, and the remaining difference to every desired value has shrunk by the same factor. A triangular hierarchy of tuners with unlimited steps, or limited steps and known gradients, completes after finitely many calls.", "quantifier": "all devices, limits, numbers of steps between evaluations, targets, starting voltages, numbers of tuners", "why_tests_cant": "needs the queue of steps, the evaluations in between and all lower tuners together, for arbitrary real devices", "anchors": ["qtune/parameter_tuner.py:SubsetTuner.get_next_voltages", "qtune/parameter_tuner.py:ParameterTuner", "qtune/autotuner.py:Autotuner.iterate", "qtune/solver.py:NewtonSolver.suggest_next_position"]}
{"id": "C108", "title": "Starting values of the lead scan fits", "statement": "With its default arguments LeadTunnelTimeByLeadScan raises (IndexError or ValueError) for every scan of fewer than 322 points, whatever data and optimiser, and no other non-negative times help; from 322 points on the starting values respect the bounds of the fit and the line of the fall goes through the data at points 207 and 209, which is the begin of the fall only at a sampling rate of 1e8. LeadTunnelTimePrefitVersion needs three points and any number of evaluations, each starting with the results of the last, succeed when the optimiser keeps its bounds.", "quantifier": "all data, numbers of points, sampling rates, optimisers, sequences of evaluations", "why_tests_cant": "the tests never run the lead scans; the number of points enters only through the bounds", "anchors": ["qtune/evaluator.py:LeadTunnelTimeByLeadScan.process_raw_data", "qtune/evaluator.py:LeadTunnelTimePrefitVersion.process_raw_data"]}
{"id": "C109", "title": "Starting values of the load time and tunnel coupling fits", "statement": "NewLoadTime raises ValueError at every evaluation when initial_curvature is outside 2..300; otherwise the optimiser gets the minimum, the difference of first and last value and the given curvature, and only its RuntimeError becomes NaN. For a line scan over a step in a straight line with more than a quarter of the points on both sides the starting values for offset, slope and height are exact, the width is an eighth of the range, and the position lies half a window before the step. One or two points raise TypeError; three to eleven points give the first point as position whatever the data.", "quantifier": "all data, steps, slopes, offsets, numbers of points, polynomial fits that are exact on straight lines", "why_tests_cant": "tests use one synthetic scan; exactness of the starting values is a statement about all steps", "anchors": ["qtune/evaluator.py:NewLoadTime.process_raw_data", "qtune/evaluator.py:InterDotTCByLineScan.process_raw_data", "qtune/util.py:find_lead_transition_index"]}
{"id": "C110", "title": "Recalculation of the fits from stored data", "statement": "Calling process_raw_data without argument raises for both lead scan evaluators after any sequence of measurements; NewLoadTime rejects its own stored raw data and, given them as an array, exchanges axis and values; InterDotTCByLineScan gets axis and values of the measurement back, over the whole range in equal steps. From a new measurement both lead scan evaluators use and store the second row minus the first.", "quantifier": "all measured data, all sequences of successful and failing measurements", "why_tests_cant": "recalculation is not tested; it depends on what earlier calls stored", "anchors": ["qtune/evaluator.py:LeadTunnelTimePrefitVersion", "qtune/evaluator.py:LeadTunnelTimeByLeadScan", "qtune/evaluator.py:NewLoadTime", "qtune/evaluator.py:InterDotTCByLineScan"]}
{"id": "C111", "title": "Figures of several evaluators from the history", "statement": "plot_evaluator_data removes unknown names from the caller's list while iterating over it: the known names stay in their order, and an unknown name survives iff two unknown names follow each other, which is a KeyError when a row is plotted. A tuple with an unknown name and the default argument raise. Every figure that is made shows exactly the requested evaluators with data in its row on consecutive fields, as many as measurements, at most one field empty. No figure is made for a row without data, for AveragingEvaluators, for a measured SensingDot1D or for names without plot function.", "quantifier": "all histories, rows, lists of names", "why_tests_cant": "plots are not tested; which unknown names survive depends on their positions", "anchors": ["qtune/history.py:plot_evaluator_data", "qtune/history.py:plot_function_matching"]}
{"id": "C112", "title": "The raw data window", "statement": "A click on a stored evaluator with one measurement hands a single Axes to the plot function, so the load time, the two-dimensional sensing dot scan and a lead transition with one scan are never shown, whatever the data; a lead transition with at least two scans of the right shape has a field for every scan. When a window is refreshed, a fit of one measurement appears from the second refresh on, and the two-dimensional scan at every second refresh, because its colour scale counts as a field.", "quantifier": "all stored data, any number of refreshes", "why_tests_cant": "the window is not tested; the alternation needs several refreshes", "anchors": ["qtune/gui.py:MeasurementDataWidget", "qtune/history.py:plot_load_time", "qtune/history.py:plot_2dim_sensing_dot_scan", "qtune/history.py:plot_transition"]}
{"id": "C113", "title": "Stored data that cannot be plotted", "statement": "As soon as LeadTunnelTimeByLeadScan has starting values or a fit, its plot is a TypeError in window and figure, because the curve of the other version is called with its twelve labels; the prefit version is plotted. A line with marks is drawn iff it is one-dimensional, as long as its axis, not empty and not of length two. plot_parameters and plot_gradients need labels with known units; the default parameters of the lead scans have none. Gradients of a single parameter cannot be plotted.", "quantifier": "all stored data and label lists", "why_tests_cant": "plots are not tested; the failing labels are those of one evaluator", "anchors": ["qtune/history.py:plot_lead_time", "qtune/history.py:plot_parameters", "qtune/history.py:plot_gradients", "qtune/history.py:parameter_information", "qtune/util.py:plot_raw_data_fit", "qtune/util.py:plot_raw_data_vertical_marks"]}
{"id": "C114", "title": "References in a live history", "statement": "A row appended while the tuning runs keeps, for every later course of the tuning, the raw data, fit results and transition positions of its own evaluation. The starting values of NewLoadTime, the intermediate values of InterDotTCByLineScan and the centres of sensing dot scans are changed in place, so every row shows the latest ones. A row of an AveragingEvaluator keeps the raw data of its own repetitions, but everything plotted from it is the state of the averaged evaluator now.", "quantifier": "all sequences of evaluations (successful or failing) and appends, all values", "why_tests_cant": "tests compare a history at one moment; the change of old rows needs a later evaluation", "anchors": ["qtune/history.py:read_evaluator_data_from_autotuner", "qtune/history.py:plot_average_evaluator", "qtune/evaluator.py:NewLoadTime.process_raw_data", "qtune/evaluator.py:InterDotTCByLineScan.process_raw_data", "qtune/evaluator.py:AveragingEvaluator"]}
{"id": "C115", "title": "Transfer of Python objects to MATLAB", "statement": "A numpy matrix arrives in MATLAB with the same entry at the same row and column, leading dimensions of size one dropped, a vector as a row. Whatever is transferred, MATLAB finds exactly the numbers of the Python object under the same keys and positions. A transfer is refused exactly if something unfit is inside: a text, a bool or None, an array of another type or with no or more than two real dimensions, a Series with a repeated label. A tuple is never refused: it becomes a generator over unconverted objects.", "quantifier": "all objects (nested lists, sets, dictionaries, Series, arrays of every shape and content)", "why_tests_cant": "a square or one-row test array does not show the order of the entries; nesting and shapes are unbounded", "anchors": ["qtune/sm.py:SpecialMeasureMatlab.to_matlab"]}
{"id": "C116", "title": "Registry of MATLAB engines", "statement": "For every sequence of starts, connections and dropped references, a second connection to a session is attempted only for a session this process has started; connecting by the same name again gives the same engine without a new connection. A started engine is registered under its process id only, so connecting to it by its name always fails.", "quantifier": "all sequences of requests, all names and process ids", "why_tests_cant": "needs several MATLAB sessions and every order of requests", "anchors": ["qtune/sm.py:SpecialMeasureMatlab._start_engine", "qtune/sm.py:SpecialMeasureMatlab._connect_to_engine"]}
{"id": "C117", "title": "Values passed through from MATLAB", "statement": "SMQQDPassThru without line measurements deals the i-th value to the i-th parameter with an error scaled by the residual of the same measurement; with line measurements only, value and variance of the i-th one. The first evaluation measures nine times and its errors are the sample variances of the first eight. A failure in those leaves NaN errors for ever; mixtures with line measurements lose values and scalings; with the experiments of the package every evaluation fails after one measurement.", "quantifier": "all numbers of measurements and parameters, all measured vectors, all later evaluations", "why_tests_cant": "the class cannot be run without MATLAB, and fails with every experiment of the package", "anchors": ["qtune/sm_tune_qqd.py:SMQQDPassThru.evaluate", "qtune/sm_tune_qqd.py:SMQQDPassThru.evaluate_error"]}
{"id": "C118", "title": "Calls of MATLAB measurement functions", "statement": "SMTuneQQD.measure calls tune.tune with the name, the index and every other option once, in order, numbers as doubles; measuring again sends the same call; no measurement is carried out whose result is not understood. The measurements it offers itself lack the index and can never be measured. The scans of LegacyDQDRefactored receive every option, the five numbers of line and detuning scans converted, with the file name of this measurement, and fail exactly if one of those cannot be converted.", "quantifier": "all options of a measurement, all known and unknown names", "why_tests_cant": "MATLAB is not available in tests; options are unbounded", "anchors": ["qtune/sm_tune_qqd.py:SMTuneQQD.measure", "qtune/sm_tune_qqd.py:SMTuneQQD.tune", "qtune/sm_tune_qqd.py:SMTuneQQD.pytune", "qtune/sm.py:LegacyDQDRefactored.measure"]}
{"id": "C119", "title": "Snapshots of the asynchronous writer", "statement": "What AsynchronousHDF5Writer.write hands to its worker is a deep copy in which an experiment is replaced by the number id(experiment), once per experiment. The file written from it is loaded as a copy of the object at the moment of the call, with the same values and sharing, and with the supplied experiment at every place of the old one. Everything changeable in the snapshot is a new object, so that later changes of the autotuner do not reach the file. With a worker process instead of a thread (the default of the class) the experiment comes back as a number.", "quantifier": "all object trees with sharing, all reserved experiments, all contents", "why_tests_cant": "needs a change of the object between call and writing, and every pattern of sharing; the number that replaces the experiment is found by object identity only", "anchors": ["qtune/storage.py:AsynchronousHDF5Writer.write", "qtune/storage.py:AsynchronousHDF5Writer.__init__", "qtune/experiment.py:Experiment.__deepcopy__", "qtune/autotuner.py:Autotuner.save_current_status"]}
{"id": "C120", "title": "Arguments of the evaluators", "statement": "The constructor of every evaluator takes exactly the arguments of a table and raises TypeError for any other and for a missing one; every attribute is the argument of its name or the default. Measurements and parameters become tuples; the lead transition measures one line scan per sweeping gate unless it is given measurements; an averaging evaluator measures what the averaged one measures and is named after it; limits and errors given per parameter are aligned by name, NaN for missing names. The upper limit of a position that nobody gives is minus infinity.", "quantifier": "all 17 evaluators, all sets of keyword arguments and values", "why_tests_cant": "tests call the constructors with a few fixed arguments", "anchors": ["qtune/evaluator.py:Evaluator.__init__", "qtune/evaluator.py:FittingEvaluator.__init__", "qtune/evaluator.py:LeadTransition.__init__", "qtune/evaluator.py:AveragingEvaluator.__init__", "qtune/sm_tune_qqd.py:QQDResp.__init__", "qtune/sm_tune_qqd.py:SMQQDPassThru.__init__"]}
{"id": "C121", "title": "File names of a library sort by time", "statement": "The name of a saved state is the time to the microsecond. For every start and any number of microseconds the names sort as strings exactly as the times, across ends of days, months, leap years and years up to 9999, and are equal only in the same microsecond. Within one process the names follow the performance counter within half a microsecond, whatever the clock of the computer does.", "quantifier": "all dates from year 1 to 9999, all numbers of microseconds, all readings of the counter", "why_tests_cant": "calendar boundaries and padding are unbounded many; the order is relied upon when a library is loaded", "anchors": ["qtune/util.py:high_res_datetime", "qtune/util.py:time_string", "qtune/autotuner.py:Autotuner.save_current_status"]}
{"id": "C122", "title": "Loading a library as a history", "statement": "Loading the directory of one autotuner gives the history that appending its states in the order of saving gives, whatever the order in which the directory is listed. The first entry that cannot be read ends the loading: an existing history keeps what was loaded before, a new one is lost. A loaded autotuner saves in a new directory below its library, one level deeper with every loading, and as soon as it has saved once the library cannot be loaded any more.", "quantifier": "all numbers and times of saves, all listings, all positions of an unreadable entry", "why_tests_cant": "needs long libraries, arbitrary listing orders and a reloaded autotuner that goes on", "anchors": ["qtune/history.py:History.load_directory", "qtune/history.py:History.__init__", "qtune/history.py:History.load_file", "qtune/storage.py:ParallelHDF5Reader.read_iter", "qtune/autotuner.py:Autotuner.__init__", "qtune/autotuner.py:Autotuner.to_hdf5"]}
{"id": "C123", "title": "Voltages given to a new Autotuner are set first", "statement": "Voltages given to the constructor of the Autotuner (voltage_to_set) are set by the first call of iterate, which then starts at the first tuner, and all other gates stay: the constructor stores the voltages on the gates in each tuner that has no last voltages, and the line of iterate that prepares the log reads them from the first tuner. If the first tuner was made with last voltages that have none of the gates to be set, no number of calls of iterate sets them: every call raises, with KeyError if nothing else is wrong, and neither the gates nor the state change.", "quantifier": "all hierarchies, all solvers, all pending voltages, all numbers of calls", "why_tests_cant": "tests start without pending voltages and without last voltages; all solvers and hierarchies", "anchors": ["qtune/autotuner.py:Autotuner.__init__", "qtune/autotuner.py:Autotuner.iterate"]}
{"id": "C124", "title": "The live plot shows what is chosen, but not after an unreadable entry", "statement": "After any sequence of choices in the tree of the main window and presses of the button Refresh, each with the history of its time, a refresh for which the history answers every question shows exactly the chosen curves and error bars with the present data, and the legend names exactly the curves; every effective choice is followed by such a refresh. A choice for a parameter is given to all its gradients, except when the parameter has it already. If an entry cannot be read, the refresh ends there: entries later in the tree keep their former data. The last parameter is drawn in the colour of the first gate, because a colour is lost after every group; no other two of gates and parameters share a colour.", "quantifier": "all trees whose names are distinct and without #, all histories, all sequences of actions, all data", "why_tests_cant": "tests of widgets check a few clicks on one history without failing reads", "anchors": ["qtune/gui.py:PlotOrganizer"]}
{"id": "C125", "title": "Messages of the library appear once in the window that was set up last, unless the root logger has a handler", "statement": "configure_logging raises StopIteration exactly if a logger above the given one, reached by propagation, has a handler; the logger has then lost its own handlers and the window has none of its messages. Otherwise no other logger changes, and every message of the logger that its level admits is received exactly once, by the window. The choice of a level sets that level at all connected loggers and changes nothing else; choosing the present entry does nothing. After setup_default_gui with a root logger without handlers, messages of 'qtune' and 'plotting' are received by the window alone exactly if they are INFO or above. Claims that do not hold: after logging.basicConfig the default window cannot be set up; the level shown in a new window is the level in force; the last entry, NOTSET, shows everything; there is an argument `logger` with which the main window and the windows opened from it can write messages.", "quantifier": "all trees of loggers with any handlers, levels and propagate flags, all levels of messages, all windows", "why_tests_cant": "tests run under a runner that installs its own root handlers, and try a few levels", "anchors": ["qtune/gui.py:GUI.configure_logging", "qtune/gui.py:LogLevelSelecter", "qtune/gui.py:FunctionHandler", "qtune/gui.py:setup_default_gui"]}
{"id": "C126", "title": "Windows opened from the main window and the autotuner they act on", "statement": "The autotuner at work is always the one whose state was taken over last from a reload window, and the worker checks, iterates and appends the autotuner of the moment. If no state is taken over during an iteration, the autotuner appended to the history is the one that was iterated just before; otherwise the history can receive an autotuner that was never iterated. A reload window acts on the autotuner at work exactly if, since it was opened or its own state was last taken over, neither another window's state was taken over nor a reload of its own failed half-way; so a reload of voltages in another window that is still open sets the voltages but restarts an autotuner that is no longer at work. A main window created without an autotuner never gets one. The lists of plot, parameter and raw data windows hold exactly the open ones, new data reach exactly the open windows other than raw data; closed reload windows stay in their list.", "quantifier": "all sequences of opening, closing and reloading with any failures, any number of windows, all interleavings with the worker", "why_tests_cant": "needs interleavings of two threads and several windows", "anchors": ["qtune/gui.py:ReloadWidget", "qtune/gui.py:GUI.spawn_reload_window", "qtune/gui.py:GUI._close_child", "qtune/gui.py:GUI.load_auto_tuner_from_reload_widget", "qtune/gui.py:GUI._work"]}
{"id": "C127", "title": "Transitions found in simulated scans; the simulated experiment", "statement": "In the samples of a smooth step, rising or falling, of any height, offset and width, the transition finder chooses a window whose middle is nearest to the step; so, for a step far enough from both ends, the position it reports is within one sampling distance of the step; a step near an end can be found several samples off. A lead transition evaluated on the simulated experiment reports for each shifted gate, under the name of that gate, a position within one sampling distance of the simulated transition at the shifted voltages. The simulated experiment reads sorted voltages that are for every gate those requested last or given at first, returns any request unchanged, changes the series its caller gave as initial voltages, refuses measurements without simulator, and simulates each measurement at the present voltages. The simulated detuning scan raises with every set of options under numpy 1.18 or later.", "quantifier": "all steps, numbers of samples and window widths; all gates, voltages, lists of requests and simulators", "why_tests_cant": "a test uses one step at one place", "anchors": ["qtune/basic_dqd.py:TestExperiment", "qtune/basic_dqd.py:transition_simulation", "qtune/basic_dqd.py:detune_simulation", "qtune/util.py:new_find_lead_transition_index", "qtune/evaluator.py:LeadTransition"]}
{"id": "C128", "title": "Newton's method with Kalman estimators on affine devices", "statement": "On an affine device whose values are reported with any positive variances, Newton's method with Kalman estimators that start with the same uncertainty in all directions and with a Jacobian whose squared error is less than a quarter of the squared smallest singular value never raises, and every new point is one an estimator asked for or reduces the squared distance to the target by a fixed factor below 1; without requests it converges geometrically from every starting point. If the values are reported as exact (variance 0), the steps of a run that did not raise are linearly independent and the gradients are right along them; the next measurement raises LinAlgError exactly if its step is a combination of the earlier ones, so every run raises within two measurements more than there are gates, whatever points are asked for; a Newton step that fails so is at the target.", "quantifier": "all numbers of gates and parameters, affine devices, variances, request functions and numbers of rounds", "why_tests_cant": "a test runs one device for a few rounds", "anchors": ["qtune/gradient.py:KalmanGradientEstimator.update", "qtune/kalman_gradient.py:KalmanGradient.update", "qtune/solver.py:NewtonSolver.suggest_next_position", "qtune/solver.py:NewtonSolver.update_after_step"]}
{"id": "C129", "title": "Gradients from a minimal number of points; the suggested direction", "statement": "gradient_min_evaluations on n + 1 or 2n points of n gates returns the only matrix that explains all compared differences of the values by those of the points, and raises EvaluationError exactly if some direction is orthogonal to all compared differences; it is exact for affine parameters from any such points and, at the centre of points on both sides of it, for quadratic ones; row by row it is the gradient calculate_gradient_non_orthogonal computes. Lists of different lengths, empty lists, other numbers of points and no gates raise AssertionError, IndexError, RuntimeError and ValueError. sugg_diff_position is the first part that is not zero of an eigenvector of the largest variance; with one value it has length 1 and no direction has a larger variance; with several correlated values it can be shorter and not of largest variance.", "quantifier": "all numbers of gates, values and points, all values", "why_tests_cant": "a test compares two point sets with one known gradient", "anchors": ["qtune/util.py:gradient_min_evaluations", "qtune/util.py:calculate_gradient_non_orthogonal", "qtune/kalman_gradient.py:KalmanGradient.sugg_diff_position"]}
{"id": "C130", "title": "all_estimators_ready", "statement": "all_estimators_ready is decided by the first estimator of a NewtonSolver in the hierarchy that does not answer 'no measurement': False if it asks for one, its exception if it raises, True if there is none. If it is True, nothing has changed and every solver answers with its Newton step as long as none of its parameters is tuned; if it is False and all parameters have desired values, some solver suggests a requested point. With finite differences it is True exactly if all positions are known and all gradients determined, and an unknown position raises RuntimeError. Reading it when False adds the same point twice to the stored requests of one estimator, but changes no later suggestion. A parameter without desired value can keep it False for ever although the solver never asks for a measurement.", "quantifier": "all hierarchies, estimators, targets and later calls", "why_tests_cant": "a test reads the property once and does not look at what it stores or at parameters without target", "anchors": ["qtune/autotuner.py:Autotuner.all_estimators_ready", "qtune/gradient.py:FiniteDifferencesGradientEstimator.require_measurement", "qtune/solver.py:NewtonSolver.suggest_next_position"]}
{"id": "C131", "title": "Classes that can be loaded, version of a file, readers of files", "statement": "A class name belongs to the last class statement with that name, even if that statement was refused for lack of to_hdf5. After any imports by the user, a load knows exactly the 24 core classes, MatlabEvaluator if matlab.engine is installed and sm, sm_tune_qqd or kalman_heuristics was imported, and the nine QQD classes if it is installed and sm_tune_qqd was imported; kalman_heuristics itself can never be imported. An object of an unknown class is loaded as None without error. The version is the commit of the package if gitpython is there, otherwise that of the repository at the current directory, which can be another one; other errors of gitpython make the save fail. The version attribute of a file is overwritten by each save, also by one that fails. read_files never returns entries and raises if a file was saved with reserved objects. load_auto_tuner returns a copy of what was saved under the name autotuner, KeyError for another name, AssertionError without experiment.", "quantifier": "all sequences of class statements, imports, writes and files; all object graphs", "why_tests_cant": "depends on the modules imported before, on the directory the process runs in and on the history of a file", "anchors": ["qtune/storage.py:HDF5Serializable", "qtune/storage.py:_import_all", "qtune/storage.py:to_hdf5", "qtune/storage.py:_from_hdf5", "qtune/util.py:get_git_info", "qtune/util.py:get_version", "qtune/history.py:read_files", "qtune/autotuner.py:load_auto_tuner", "qtune/kalman_heuristics.py"]}
{"id": "C132", "title": "Newton with finite differences on nonlinear and noisy devices", "statement": "Whatever is measured, a NewtonSolver with asymmetric finite difference estimators that starts at their position measures its first n+1 rounds at points in general position, takes the Jacobian of the chords of the measured values, never fails and uses this Jacobian in every later step. If near the start the slopes of the device differ from a matrix A with smallest singular value a by kappa or less, the noise is tau or less and the first steps have length e or more, the error of the Jacobian is bounded by ep, and with 2 ep + kappa < a the distance to the target after n+1+m rounds is at most q^(m+1) s0 + b with q = (ep+kappa)/(a-ep) < 1 and b = (1+q) tau/(1-q), the voltages staying in the neighbourhood. Without such assumptions the voltages can alternate forever between two points although the target exists (square function, start at 5, steps of 2, target 169).", "quantifier": "all numbers of gates and parameters, all devices and all noise, all rounds", "why_tests_cant": "a limit for all rounds and all devices in a class; tests run finitely many simulated devices", "anchors": ["qtune/solver.py:NewtonSolver.suggest_next_position", "qtune/solver.py:NewtonSolver.update_after_step", "qtune/gradient.py:FiniteDifferencesGradientEstimator", "qtune/util.py:calculate_gradient_non_orthogonal", "qtune/parameter_tuner.py:SubsetTuner", "qtune/autotuner.py:Autotuner.iterate"]}
{"id": "C133", "title": "Figures of the whole history and the parameter and gradient windows", "statement": "A refresh of the parameter window draws every parameter with error bars and labels, or draws nothing: the latter as soon as one name has no column or no entry in parameter_information. A refresh of the gradient window draws all gradients of all parameters with error bars or draws nothing; it needs a gradient of every parameter of the history, otherwise the window stays blank forever. With a single parameter the first refresh of a window fails with a TypeError and all later ones succeed. plot_tuning with any list of its options returns and opens exactly the chosen figures (all names sorted, or those given), or raises; the gradient of a single parameter always raises a TypeError and leaves open figures behind; the documented mode with_par_variences does nothing. Labels of different parameters coincide, and tunnel_coupling also shows the gradients of parameter_tunnel_coupling. When something raises, the figures that were finished and the one being drawn stay open, with curves and labels up to the name that failed; a window keeps such a half-drawn figure (or, with a missing column, the old one), which the next repainting shows.", "quantifier": "all histories, names, lists of options, states of a window and sequences of refreshes", "why_tests_cant": "the windows need a display and Qt; the outcome depends on the set of names, the columns and on the fields left by earlier refreshes", "anchors": ["qtune/history.py:History.plot_tuning", "qtune/history.py:plot_parameters", "qtune/history.py:plot_gradients", "qtune/history.py:plot_voltages", "qtune/history.py:parameter_information", "qtune/gui.py:ParameterWidget.refresh", "qtune/gui.py:GradientWidget.refresh", "qtune/gui.py:QTuneMatplotWidget.get_clear_axes"]}
{"id": "C134", "title": "Limited steps while the gradients are being learnt", "statement": "A SubsetTuner with NewtonSolver, finite difference estimators, any step size limit (or none) and one step per evaluation (the default), on any device: no round raises, every round evaluates, no step is longer than the limit. Although requested points may never be reached, the first n+1 points are in general position; the Jacobian of their chords is used for ever, each step going along the shortest least squares solution, whole or cut to the limit. On an affine device whose target can be met at a distance of at most M limits from the start, the target is met exactly after at most 2n+M rounds, and the voltages stay there. With more than one step per evaluation this fails: if the first request is at a distance of exactly K limits, 2 <= K <= maximal_step_number, there is never a second evaluation.", "quantifier": "all devices, noises, dimensions, limits, choices of the orthogonal vectors, starting points and targets", "why_tests_cant": "the points depend on the limit and on the choice of directions; general position of points that were never asked for is a statement of linear algebra", "anchors": ["qtune/parameter_tuner.py:SubsetTuner.is_tuned", "qtune/parameter_tuner.py:SubsetTuner.get_next_voltages", "qtune/solver.py:NewtonSolver.suggest_next_position", "qtune/gradient.py:FiniteDifferencesGradientEstimator.require_measurement", "qtune/gradient.py:FiniteDifferencesGradientEstimator.update"]}
{"id": "C135", "title": "Limited steps on nonlinear and noisy devices", "statement": "A SubsetTuner as in C134 whose limit leaves the finite difference steps whole, on a device that is nearly affine in a neighbourhood of the start and measured with bounded noise (the assumptions of C132): no round raises, the voltages stay in the neighbourhood, and the distance from the target shrinks by at least the factor 1 - c0(1-q) in every round, q being the contraction factor of the unlimited method and c0 the part of the first Newton step that the limit allows, up to an offset proportional to the noise; every parameter is measured as close to its target as that, plus the noise. A limit can also make the method work where the unlimited one fails: on the square function with start 5, displacement 2 and target 169 (C132: the voltages alternate between 7 and 17 for ever) the limit 2 leads through 7, 9 and 11 to the solution 13, where the voltages stay.", "quantifier": "all devices of the class, noises, dimensions, limits, starting points, targets and numbers of rounds", "why_tests_cant": "the length of the steps and the direction errors interact over unboundedly many rounds", "anchors": ["qtune/parameter_tuner.py:SubsetTuner.is_tuned", "qtune/parameter_tuner.py:SubsetTuner.get_next_voltages", "qtune/solver.py:NewtonSolver.suggest_next_position", "qtune/gradient.py:FiniteDifferencesGradientEstimator.require_measurement", "qtune/gradient.py:FiniteDifferencesGradientEstimator.update"]}
{"id": "C136", "title": "The Kalman gradient is the best fit and its variance bounds its error", "statement": "Without dynamics and process noise, for any fading memory alpha <> 0 and any sequence of updates with invertible measurement covariances (own or default), the gradient of KalmanGradient is the only minimiser of the sum of the squared distance from the initial gradient in the metric of the initial covariance and of the squared misfits of all measured differences, each divided by its covariance, where everything older than a prediction counts alpha^2 times less; the inverse of the reported covariance is the curvature of this sum. Whatever the true gradient and the errors of the measurements are, the squared error of the predicted change of a value along any step is at most the reported variance along the step times the sum at the true gradient (prior error plus measurement errors).", "quantifier": "all dimensions, numbers of values, updates, covariances, fading memories, gradients and steps", "why_tests_cant": "optimality over all gradients and all histories of measurements", "anchors": ["qtune/kalman_gradient.py:KalmanGradient.update", "qtune/kalman_gradient.py:KalmanGradient.grad", "qtune/kalman_gradient.py:KalmanGradient.cov"]}
{"id": "C137", "title": "Buttons, number and pictures of the raw data window", "statement": "Whatever is entered, pressed and stored while it is open, the raw data window has exactly one button per evaluator known at its opening, in their order and two in a row, and no two widgets share a place; the field always shows the number that is used, which is a stored row if the history had one at the opening and loses none; every press puts up the picture of the evaluator of the button for the number shown, on top of the earlier ones. An evaluator that turns up later has no button, and a number entered before the first row stays -1.", "quantifier": "all histories and sequences of events", "why_tests_cant": "windows need a display; unbounded sessions", "anchors": ["qtune/gui.py:EvaluatorWidget.refresh", "qtune/gui.py:EvaluatorWidget.plot_raw_data", "qtune/gui.py:EvaluatorWidget.refreh_tune_run_number", "qtune/gui.py:GUI.spawn_evaluator_window"]}
{"id": "C138", "title": "Stored raw data can never be evaluated again by reevaluate_data_with_matlab", "statement": "For every history, evaluator, choice of indices and experiment reevaluate_data_with_matlab measures nothing, sets no option and asks nothing: it returns [] for an empty list of indices and otherwise raises KeyError, IndexError, TypeError or AttributeError, decided by the first index, because the cells of the history are dictionaries (or NaN) and the function reads attributes. With evaluators in the cells it would measure every index in turn with the files of its row.", "quantifier": "all histories, names, indices and experiments", "why_tests_cant": "needs MATLAB; a test shows single indices only", "anchors": ["qtune/sm_tune_qqd.py:reevaluate_data_with_matlab", "qtune/history.py:read_evaluator_data_from_autotuner"]}
{"id": "C139", "title": "Newton's method with Kalman estimators learns from any first gradients", "statement": "With positive reported variances no round of Newton's method with Kalman estimators raises, whatever the device returns. On any device, with any errors of measurement and any requests, and for every linear model A, the sum of the squared distances to the target after all Newton steps, each divided by the largest variance plus the variance of the prediction, is at most the squared errors of the first gradients in units of their covariances plus the squares of all changes not explained by A in units of their variances. So on an affine device only a fixed number of Newton steps of limited length ends far from the target. The requests of the estimators take only a fixed number of rounds, on any device; and if the maximum covariance is small enough for the errors of the first gradients, each other round on an affine device reduces the squared distance to the target by a fixed factor.", "quantifier": "all devices, errors, first gradients, covariances, requests, numbers of rounds", "why_tests_cant": "unbounded runs, any errors; a test shows single devices", "anchors": ["qtune/solver.py:NewtonSolver.suggest_next_position", "qtune/solver.py:NewtonSolver.update_after_step", "qtune/gradient.py:KalmanGradientEstimator.update", "qtune/gradient.py:KalmanGradientEstimator.require_measurement", "qtune/kalman_gradient.py:KalmanGradient.update"]}
{"id": "C140", "title": "Views of MATLAB data and calls of MATLAB functions through them", "statement": "A call of a MATLABFunctionView gives the function the values of its arguments at that time, in order, and returns a view of its result; apart from the variable temp nothing else in the workspace changes. Results of calls with different numbers stay what they were, whatever is called later and whether it fails. Arguments and results are never deleted, except all at once by clear_all_temporary_data, after which every view of a result is dead. A variable temp of the user is overwritten, and a view of it given after a Python argument is replaced by that argument; two calls with the same number share one result. Attributes of struct views are the fields (one for each element of an array), loops over a view give all elements, a negative index gives a view that cannot be read; names with an underscore cannot be read and a missing field is no AttributeError. Views follow later assignments, numbers do not. The measurements stp and tl return the two numbers of the analysis of their own call, or raise if there is none.", "quantifier": "all workspaces, functions, arguments and sequences of calls", "why_tests_cant": "needs MATLAB; depends on names of variables in the workspace and on everything called later", "anchors": ["qtune/mat2py.py:make_view", "qtune/mat2py.py:MATLABView", "qtune/mat2py.py:MATLABStructView.__getattr__", "qtune/mat2py.py:MATLABStructView.__getitem__", "qtune/mat2py.py:MATLABFunctionView.__call__", "qtune/mat2py.py:MATLABFunctionView.clear_all_temporary_data", "qtune/sm_tune_qqd.py:SMTuneQQD.measure"]}
{"id": "C141", "title": "Newton's method with Kalman estimators and limited steps reaches the target", "statement": "A SubsetTuner with Kalman estimators, a limit of the step size and a queue of steps never raises while the reported variances are positive. Whoever chooses the voltages, on any device, the sum of the squared errors of all changes predicted by the estimated gradients, in units of the variances of value and prediction, is bounded by the errors of the first gradients and by the changes that a linear model does not explain. Without requests, each Newton step is made in at most maximal_step_number rounds, entirely or in a part of one to maximal_step_number limits, and then the next measurement follows. On an affine device without errors with as many parameters as gates, from any first gradients, the number of shortened steps and the number of whole steps that end farther from the target than any given distance have explicit bounds; so the tuner comes as close as wanted within a known number of measurements, unless the estimated gradients become dependent or a step is shorter than 1e-7.", "quantifier": "all dimensions, affine devices, first gradients and covariances, limits and queue lengths; the bound of the predictions for all devices, errors and voltages", "why_tests_cant": "a bound over all first gradients, also with the wrong sign, and over all numbers of measurements", "anchors": ["qtune/parameter_tuner.py:SubsetTuner.is_tuned", "qtune/parameter_tuner.py:SubsetTuner.get_next_voltages", "qtune/solver.py:NewtonSolver.suggest_next_position", "qtune/solver.py:NewtonSolver.update_after_step", "qtune/gradient.py:KalmanGradientEstimator.update", "qtune/kalman_gradient.py:KalmanGradient.update"]}
{"id": "C142", "title": "Requests of Kalman estimators with limited steps", "statement": "A SubsetTuner with Kalman estimators that ask for measurements, a limit of the step size and one step per evaluation. On any device the number of rounds in which somebody asks for a measurement has an explicit bound, although requested steps are cut to the limit. On an affine device, from any first gradients, with a maximum covariance that is small enough for their errors, every step is within the limit and a round without request reduces the squared distance to the target by a factor that is known from the limit and the distance. Over all requests the distance stays bounded, so the tuner comes as close to the target as wanted, within a known number of rounds.", "quantifier": "all dimensions with at most as many parameters as gates, affine devices, first gradients and covariances, eigenvectors, lengths of requests and limits; the bound of the requests for all devices", "why_tests_cant": "a bound over all first gradients, also with the wrong sign, over all choices of eigenvectors and over all numbers of rounds", "anchors": ["qtune/gradient.py:KalmanGradientEstimator.require_measurement", "qtune/parameter_tuner.py:SubsetTuner.get_next_voltages", "qtune/solver.py:NewtonSolver.suggest_next_position", "qtune/solver.py:NewtonSolver.update_after_step", "qtune/kalman_gradient.py:KalmanGradient.update"]}
{"id": "C143", "title": "Kalman filters that forget", "statement": "With fading memory (alpha) every predicted measurement divides the weight of all that was measured before by alpha squared: after the gradient has changed, N noiseless measurements leave a squared error of at most the reported variance times alpha^(-2N) times the old misfit, and along the last step at most the variance of the measurement times that. The same forgetting makes the estimator ask again: if a direction is measured too weakly, an estimator whose maximum covariance is below the variance that fading memory leaves asks for measurements again, however well the gradient was known. With process noise of variance q the variance never falls below 1/(1/q + d^2/r) after a measurement with step d and variance r. If the maximum covariance of the estimators is below that floor, the first request is followed by requests in every round, so the solver never makes a Newton step, and the voltages depend neither on the device nor on the target.", "quantifier": "all dimensions, histories, directions, eigenvectors, devices, reported variances and numbers of rounds; process noise that is positive in all directions", "why_tests_cant": "forgetting is a bound over all histories; the starvation of the solver is a property of infinite runs over all devices", "anchors": ["qtune/kalman_gradient.py:KalmanGradient.__init__", "qtune/kalman_gradient.py:KalmanGradient.update", "qtune/gradient.py:KalmanGradientEstimator.require_measurement", "qtune/gradient.py:KalmanGradientEstimator.update", "qtune/solver.py:NewtonSolver.suggest_next_position"]}
{"id": "C144", "title": "Requests with tuned parameters end with equal step widths, not with different ones", "statement": "Newton's method with Kalman estimators that look at the null space of a tuned Jacobian. With one step width for all gates the number of rounds in which somebody asks for a measurement is at most the sum of the traces of the first covariances divided by M^2 e^2 / (M e^2 + wmax), on any device and for any null spaces. With different step widths the requested step is not along the null vector. If an estimator does not know the direction orthogonal to that step well enough, the same step is requested in every round on any device: the voltages move away in a straight line for ever, and the already tuned parameters, whose gradients stay as they are, change by the same amount in each round.", "quantifier": "all dimensions, devices, reported variances, null vectors, step widths, covariances and numbers of rounds", "why_tests_cant": "infinite runs; the bound and the runaway hold for all devices", "anchors": ["qtune/gradient.py:KalmanGradientEstimator.require_measurement", "qtune/solver.py:NewtonSolver.suggest_next_position", "qtune/solver.py:NewtonSolver.update_after_step", "qtune/kalman_gradient.py:KalmanGradient.update"]}
{"id": "C145", "title": "Requests with one maximum covariance per gate end and let the tuning converge; ignored gates may never be moved", "statement": "Newton's method with Kalman estimators that have one maximum covariance per gate, some of them infinite ('the dimension is ignored'). If no maximum is below M, the number of rounds in which somebody asks is at most the sum of the traces of the first covariances divided by M^2 emin^2 / (T emax^2 + wmax), T the largest of these traces, on any device. If no maximum is above M and M is small enough for the errors of the first gradients, every other round on an affine device reduces the squared distance to the target by a fixed factor. A gate that is ignored by all estimators, uncorrelated with the others, and has first gradients 0 is never moved and its gradient never learned, on any device, even if the parameters depend on nothing else.", "quantifier": "all dimensions, devices, reported variances, maxima, step widths, covariances, first gradients and numbers of rounds", "why_tests_cant": "infinite runs; bounds for all devices and all choices of eigenvectors", "anchors": ["qtune/gradient.py:KalmanGradientEstimator.require_measurement", "qtune/solver.py:NewtonSolver.suggest_next_position", "qtune/solver.py:NewtonSolver.update_after_step", "qtune/kalman_gradient.py:KalmanGradient.update"]}
{"id": "C146", "title": "Two tuners that disturb each other are tuned if the feedback is below one and may run for ever otherwise", "statement": "The first two tuners of a hierarchy have gates and parameters of their own, but the gates of each also change the parameters of the other; their gradients are known from the start, steps are not limited, the parameters are affine. The feedback is the largest error of the second tuner's parameters after it made its step and the first tuner corrected its own parameters, relative to the error before. If it is at most rho < 1, a finite number of calls of iterate ends with both targets met, no call raises, and other gates are not touched; if the first target is hit exactly at the start and the second missed by at most r, 7M+2 calls suffice, where rho^M r is below the tolerances. With one gate and one parameter each, a feedback of at least 1 and errors above the tolerances, every call of iterate succeeds and tuning is never complete.", "quantifier": "all affine devices, numbers of gates and parameters, targets, tolerances, starting voltages, further tuners", "why_tests_cant": "infinite runs and real-valued devices", "anchors": ["qtune/autotuner.py:Autotuner.iterate", "qtune/parameter_tuner.py:SubsetTuner.get_next_voltages", "qtune/solver.py:NewtonSolver.suggest_next_position"]}
{"id": "C147", "title": "A tuner on a device that is not affine is tuned if the device follows its gradients, and may run for ever if it does not", "statement": "The first tuner of a hierarchy measures an arbitrary function of the voltages; steps are not limited. (1) With given gradients: if, as long as every target is missed by at most r, the measured change after a shortest step differs from the promised one by at most the fraction rho <= 1 of the largest promised change, all targets are missed by at most r at the start and rho^M r is below the tolerances, at most 3M+1 calls of iterate end with the targets met, no call raises, and other gates are not touched. (2) With one parameter whose changes are opposite to the promised ones or at least twice as large, every call of iterate succeeds and tuning is never complete. (3) Without gradients: if the device follows all secants through as many points as there are gates up to the fraction rho < 1, the tuner measures its gradients and ends with the targets met. (4) With one gate and one parameter it suffices that any two difference quotients differ by at most the fraction rho < 1.", "quantifier": "all devices, numbers of gates and parameters, targets, tolerances, starting voltages, further tuners", "why_tests_cant": "infinite runs and arbitrary real functions as devices", "anchors": ["qtune/autotuner.py:Autotuner.iterate", "qtune/parameter_tuner.py:SubsetTuner.get_next_voltages", "qtune/solver.py:NewtonSolver.suggest_next_position", "qtune/gradient.py:FiniteDifferencesGradientEstimator.require_measurement", "qtune/gradient.py:FiniteDifferencesGradientEstimator.estimate"]}
{"id": "C148", "title": "Tuning with evaluators whose answers change from call to call", "statement": "The k-th call of iterate measures an arbitrary function of the voltages that may be different for every k. The first tuner of a hierarchy was given gradients, steps are not limited. (1) If all measured values are within eta (in units of the target) of a device that follows the gradients up to the fraction rho < 1, the targets are missed by at most r - eta at the start, and rho^M r + 2 eta (1 - rho^M)/(1 - rho) is below the tolerances, at most 3M+1 calls end with the tuner tuned, no call raises, other gates are not touched, and the true values miss the targets by less than the tolerance plus eta. (2) If no measurement hits the target at any voltages, for instance because of a noise as large as the tolerance, every call of iterate succeeds and tuning is never complete.", "quantifier": "all sequences of devices and noise values, numbers of gates and parameters, targets, tolerances, starting voltages, further tuners", "why_tests_cant": "infinite runs and arbitrary noise", "anchors": ["qtune/autotuner.py:Autotuner.iterate", "qtune/parameter_tuner.py:SubsetTuner.is_tuned", "qtune/solver.py:NewtonSolver.suggest_next_position", "qtune/solver.py:NewtonSolver.update_after_step"]}
{"id": "C149", "title": "A hierarchy of any height on devices that are not affine", "statement": "Any number of tuners with given gradients, without step limits; every device follows the gradients of its tuner up to a fraction below one; gates and parameters of different tuners are disjoint and moving the gates of a higher tuner does not change what lower tuners measure, while lower tuners may change the parameters of higher ones in any way. (1) After finitely many calls of iterate, none of which raises, all tuners are tuned, all targets are met at the final voltages at once, and gates of no tuner are untouched. (2) If tuner number j, once the lower tuners are tuned, misses its targets by at most r_j and rho_j^(M_j) r_j is below its tolerances, the number of calls is at most the sum of 1 + M_j (j + 3): after every step of tuner j all j lower tuners are evaluated again.", "quantifier": "all numbers of tuners, gates and parameters, all devices, targets, tolerances, fractions and starting voltages", "why_tests_cant": "unbounded runs on arbitrary devices", "anchors": ["qtune/autotuner.py:Autotuner.iterate", "qtune/parameter_tuner.py:SubsetTuner.is_tuned", "qtune/parameter_tuner.py:SubsetTuner.get_next_voltages", "qtune/solver.py:NewtonSolver.suggest_next_position", "qtune/solver.py:NewtonSolver.update_after_step"]}
{"id": "C150", "title": "Steps of limited size in a hierarchy on devices that are not affine", "statement": "The hierarchies of C149, where any tuner may limit the size of its steps to m_j > 0 and omit up to N_j - 1 >= 0 evaluations in a row. (1) After finitely many calls of iterate, none of which raises, all tuners are tuned, all targets are met at the final voltages at once, and gates of no tuner are untouched; this holds for all limits, since the steps of every tuner are bounded by a multiple of the change they are meant for. (2) If the steps of tuner j are at most G_j times as long as the largest change they are meant for, tuner j misses its targets by at most r_j once the lower tuners are tuned, G_j r_j <= a_j (1 - rho_j) m_j and rho_j^(c_j) r_j is below the tolerances, the number of calls is at most the sum of 1 + (a_j + c_j) (j + 3): steps without evaluation cost as many calls as whole rounds.", "quantifier": "all numbers of tuners, gates and parameters, all devices, targets, tolerances, step sizes, numbers of steps, fractions and starting voltages", "why_tests_cant": "unbounded runs on arbitrary devices", "anchors": ["qtune/autotuner.py:Autotuner.iterate", "qtune/parameter_tuner.py:SubsetTuner.is_tuned", "qtune/parameter_tuner.py:SubsetTuner.get_next_voltages", "qtune/solver.py:NewtonSolver.suggest_next_position", "qtune/solver.py:NewtonSolver.update_after_step"]}
{"id": "C151", "title": "Hierarchies of tuners that measure their gradients on devices that are not affine", "statement": "The hierarchies of C149 and C150, where a tuner without a limit to its steps may start without gradients. It then measures them with finite differences the first time it is evaluated, when the lower tuners are tuned: each of its points is followed by an evaluation of all lower tuners, which stay tuned. Its device follows, up to a fraction rho < 1, all gradients that reproduce the values at points like the ones it visits, and it misses its targets wherever it measures. (1) After finitely many calls of iterate, none of which raises, all tuners are tuned, all targets are met at the final voltages at once, and gates of no tuner are untouched. (2) A tuner with g_j gates needs g_j rounds to measure and k_j rounds with rho_j^(k_j) r_j below the tolerances to tune, so the number of calls is at most the sum of 1 + (g_j + k_j) (j + 3).", "quantifier": "all numbers of tuners, gates and parameters, all devices, targets, tolerances, finite difference steps, fractions and starting voltages", "why_tests_cant": "unbounded runs on arbitrary devices", "anchors": ["qtune/autotuner.py:Autotuner.iterate", "qtune/parameter_tuner.py:SubsetTuner.is_tuned", "qtune/parameter_tuner.py:SubsetTuner.get_next_voltages", "qtune/solver.py:NewtonSolver.suggest_next_position", "qtune/solver.py:NewtonSolver.update_after_step", "qtune/gradient.py:FiniteDifferencesGradientEstimator", "qtune/util.py:get_orthogonal_vector"]}
{"id": "C152", "title": "What the sensing dot evaluators choose in the simulated scans", "statement": "The choice of a working point of the sensing dot in its simulations, without the smoothing. (1) In a scan over any sampled Gaussian peak or dip, SensingDot1D chooses the wanted flank with an error of at most two points, if it is not in the outer sixteenths of the scan; if the scan is below the peak or beyond it, the last considered point is chosen. (2) In ss1d_simulation the rising flank is at SDB2 = -sqrt(2e-6) V, whatever the voltages of the other gates and the centre of the scan, as long as the flank is in the considered part and the signal is positive. (3) Repeated choices that start at or below 3.5 mV - sqrt(2e-6) V, however far, stay within two points of the flank after some time; choices that start above 3.5 mV + sqrt(2e-6) V move up by more than 3 mV each time, for ever. (4) ss2d_simulation ignores the range of the measurement: the offsets that SensingDot2D chooses are the ones of the steepest simulated point times the asked range over 5 mV, doubled for the default range.", "quantifier": "all voltages, heights, widths, centres, point distances, numbers of points, ranges, flank options, and all lengths of the sequence of choices", "why_tests_cant": "the claims are about all real voltages and about endless sequences of evaluations", "anchors": ["qtune/basic_dqd.py:ss1d_simulation", "qtune/basic_dqd.py:ss2d_simulation", "qtune/evaluator.py:SensingDot1D.process_raw_data", "qtune/evaluator.py:SensingDot2D.process_raw_data"]}
{"id": "C153", "title": "The last voltages provided by the constructor change no run", "statement": "The constructor of the Autotuner stores the voltages on the gates as last voltages of all tuners that have none. (1) For every hierarchy of SubsetTuners, every solver and every number of calls of iterate, a run after the constructor and the run of the same tuners without these voltages have the same outcome, the same sequence of evaluations, proposals and settings, the same voltages on the gates and the same solvers; only the last voltages of tuners that have not been evaluated differ. (2) So the hierarchies of C151 complete as the constructor makes them.", "quantifier": "all hierarchies, solvers, evaluators (deterministic), gates and numbers of calls", "why_tests_cant": "the claim compares unbounded runs of arbitrary solvers and hierarchies", "anchors": ["qtune/autotuner.py:Autotuner.__init__", "qtune/autotuner.py:Autotuner.iterate", "qtune/parameter_tuner.py:ParameterTuner.last_voltages", "qtune/parameter_tuner.py:SubsetTuner.is_tuned"]}
