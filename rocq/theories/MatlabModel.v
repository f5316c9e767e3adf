(** Model of the MATLAB functions that move the gates (qtune/MATLAB/+qtune) and
    of the Python methods that call them (qtune/sm_tune_qqd.py L83-99,
    qtune/sm.py L183-191).

    Simplifications: a channel keeps exactly the value that [smset] gives it (no
    DAC resolution, no ramps, no limits inside special measure); decimal
    constants are exact; MATLAB errors arrive in Python as an exception
    [OtherError 7] (matlab.engine.MatlabExecutionError). *)
From Verif Require Import PyBase.
Local Open Scope R_scope.

(** Instrument state: the voltage of every channel. *)
Definition rig := label -> num.
Definition matlab_error : exn := OtherError 7.

(** [smset(channel, value)] and [smset(channels, values)]. *)
Definition smset1 (g : label) (v : num) (h : rig) : rig := fun k => if label_eqb k g then v else h k.
Definition smset (vs : series) (h : rig) : rig := fold_left (fun h p => smset1 (fst p) (snd p) h) vs h.
(** [any(x > c)], [any(x < c)]. *)
Definition any_above (c : num) (xs : list num) : bool := existsb (fun x => nltb c x) xs.
Definition any_below (c : num) (xs : list num) : bool := existsb (fun x => nltb x c) xs.

(** qtune/MATLAB/+qtune/set_qqd_gate_voltages.m L7-47.  [channels]: names [smget] accepts;
    [pretuned]: fields of the global pretuned_qqd_gate_voltages (only its field
    names matter, L11). *)
Definition set_qqd (channels pretuned : list label) (new : series) (h : rig) : rig * res unit :=
  let names := index new in
  let news := map snd new in
  let olds := map h names in
  if negb (subset names channels) then (h, Raise matlab_error)
  else if negb (subset names pretuned) then (h, Raise matlab_error)
  else let steps := map (fun p => nabs (nsub (fst p) (snd p))) (combine olds news) in
  if any_above (Fin 0) news then (h, Raise matlab_error)
  else if any_below (Fin (- (13 / 10))) news then (h, Raise matlab_error)
  else if any_above (Fin (10 / 1000)) steps then (h, Raise matlab_error)
  else (smset new h, Ok tt).

(** qtune/MATLAB/+qtune/set_qqd_gate_voltages_abs_limit.m L6-29. *)
Definition set_qqd_abs_limit (channels pretuned : list label) (new : series) (h : rig) : rig * res unit :=
  let names := index new in
  let news := map snd new in
  let olds := map h names in
  if negb (subset names channels) then (h, Raise matlab_error)
  else if negb (subset names pretuned) then (h, Raise matlab_error)
  else let steps := map (fun p => nsub (fst p) (snd p)) (combine olds news) in
  if any_above (Fin (- (4 / 10))) news then (h, Raise matlab_error)
  else if any_below (Fin (- (13 / 10))) steps then (h, Raise matlab_error)
  else (smset new h, Ok tt).

(** SMTuneQQD.read_gate_voltages, qtune/sm_tune_qqd.py L87-88: [gates] are the names
    tunedata.run{ri}.opts.gates.names of
    qtune/MATLAB/+qtune/read_qqd_gate_voltages.m L5-11. *)
Definition qqd_read (gates : list label) (h : rig) : series := map (fun g => (g, h g)) (sort_labels gates).
(** SMTuneQQD.set_gate_voltages, qtune/sm_tune_qqd.py L90-99. *)
Definition qqd_set (channels pretuned gates : list label) (new : series) (h : rig) : rig * res series :=
  match assign (qqd_read gates h) new with
  | Raise e => (h, Raise e)
  | Ok all => let (h', r) := set_qqd channels pretuned all h in
              match r with Raise e => (h', Raise e) | Ok _ => (h', Ok (qqd_read gates h')) end
  end.
(** A run: requests one after the other, failed ones are caught somewhere. *)
Definition qqd_run (channels pretuned gates : list label) (reqs : list series) (h : rig) : rig :=
  fold_left (fun h new => fst (qqd_set channels pretuned gates new h)) reqs h.

(** qtune/MATLAB/+qtune/set_gates_v_pretuned.m L10-57.  [args]: the ten struct fields; [chan]: names
    of the eight channels tunedata.gatechan; [pre]: pretuned_point; [s2], [s1]:
    sensor_pretuned (SDB2), sensor_gate1_pretuned (SDB1). *)
Definition dqd_fields : list label := ["SB"; "BB"; "T"; "N"; "SA"; "BA"; "RFA"; "RFB"]%string.
Definition max_distance : num := Fin (30 / 1000).
Definition set_pretuned (chan : list label) (pre : list num) (s2 s1 : num) (args : label -> num) (h : rig) : rig * res unit :=
  let new := map args dqd_fields in
  let back8 := existsb (fun p => nltb max_distance (nabs (nsub (fst p) (snd p)))) (combine pre new) in
  let back2 := nltb max_distance (nsub (args "SDB2"%string) s2) in
  let back1 := nltb max_distance (nsub (args "SDB1"%string) s1) in
  if back8 || back2 || back1
  then (smset1 "SDB1"%string s1 (smset1 "SDB2"%string s2 (smset (combine chan pre) h)), Raise matlab_error)
  else (smset (combine chan new ++ [("SDB1"%string, args "SDB1"%string); ("SDB2"%string, args "SDB2"%string)]) h, Ok tt).

(** qtune/MATLAB/+qtune/change_sensing_dot_gates.m L8-25. *)
Definition change_sensing (s2 s1 d1 d2 : num) (h : rig) : rig * res unit :=
  let far c x := nltb (Fin c) (nabs x) in
  if far (21 / 1000) d1 then (h, Raise matlab_error)
  else if far (21 / 1000) d2 then (h, Raise matlab_error)
  else let v1 := h "SDB1"%string in
  let v2 := h "SDB2"%string in
  if far (70 / 1000) (nsub (nadd v1 d1) s1) then (h, Raise matlab_error)
  else if far (70 / 1000) (nsub (nadd v2 d2) s2) then (h, Raise matlab_error)
  else let h1 := smset1 "SDB1"%string (nadd v1 d1) h in
       (smset1 "SDB2"%string (nadd (h1 "SDB2"%string) d2) h1, Ok tt).

(** qtune/MATLAB/+qtune/retune_qpc.m L9-50.  The scan leaves the gate at [position] (L16);
    [idx] = position of the minimum of the smoothed curve, counted from 1, it
    ranges over 1..1180 (1280 points, diff, 50:end-50).  [range], the requested
    scan range, is the range of the scan but not of the x axis (L21). *)
Definition qpc_x (position : R) (idx : nat) : R :=
  position + (- (5 / 1000) + (INR (49 + idx) - 1) * (10 / 1000) / 1279).
Definition retune_qpc (chan : list label) (pre : list num) (s2 : num) (position range : R) (gate : label) (idx : nat) (h : rig)
  : rig * res R :=
  let h0 := smset1 gate (Fin position) h in
  let x := qpc_x position idx in
  if nltb (Fin (100 / 1000)) (nabs (nsub (Fin x) s2))
  then (smset1 gate s2 (smset (combine chan pre) h0), Raise matlab_error)
  else (smset1 gate (Fin x) h0, Ok x).
