(** SMQQDPassThru, qtune/sm_tune_qqd.py L178-275: values analysed by MATLAB are
    dealt to the parameters.

    Simplifications: the experiment is a sequence of outcomes, one for every
    measurement that is carried out, each with the answer of
    [get_last_file_name] after it; an outcome is a vector of floats or an
    exception; parameter names are distinct; log messages are left out;
    [pandas.Series(index=...)] without data holds NaN. *)
From Coq Require Import Reals List String Bool Arith.
From Verif Require Import PyExn PyBase EvaluatorModel.
Import ListNotations.

Record experiment := mk_experiment {
  outcome : nat -> res (list num);     (* [experiment.measure], k-th call *)
  file_name : nat -> res string        (* [experiment.get_last_file_name()] after it *)
}.
Record passthru := mk_passthru {
  pt_error : option series;            (* [_error] *)
  pt_files : list string;              (* [_last_file_names] *)
  pt_count : nat;                      (* [_count] *)
  pt_x : list nat;                     (* [_raw_x_data] *)
  pt_y : list num;                     (* [_raw_y_data] *)
  pt_done : nat                        (* measurements carried out so far *)
}.

(** [numpy.isclose(x, 0)] with the default tolerance 1e-8. *)
Definition close_to_zero (x : num) : bool :=
  match x with Fin r => Rleb (Rabs r) (1 / 100000000) | _ => false end.
(** qtune/sm_tune_qqd.py L228-247: what one measurement appends to
    [return_values], [sum_residuals] and [variances]. *)
Definition contribution (name : string) (r : list num) : res (list num * list num * list num) :=
  if String.eqb name "lead" then
    match r with
    | [] => Raise IndexError
    | _ => Ok (removelast r, repeat (last r NaN) (List.length r - 1), [])
    end
  else if String.eqb name "line" then
    match r with
    | a :: b :: _ => Ok ([a], repeat NaN (List.length r), [b])
    | _ => Raise IndexError
    end
  else if String.eqb name "resp" then
    if List.length r <? 8 then Raise IndexError
    else Ok (firstn 4 r, map (fun x => if close_to_zero x || isna x then NaN else x) (firstn 4 (skipn 4 r)), [])
  else Ok (r, repeat NaN (List.length r), []).

Record gathered := mk_gathered { g_values : list num; g_residuals : list num; g_variances : list num }.
(** The loop L225-247; [k]: measurements carried out before. *)
Fixpoint gather (x : experiment) (names : list string) (k : nat) (files : list string) (g : gathered)
  : nat * list string * res gathered :=
  match names with
  | [] => (k, files, Ok g)
  | name :: names' =>
      match outcome x k with
      | Raise e => (S k, files, Raise e)
      | Ok r =>
          match file_name x k with
          | Raise e => (S k, files, Raise e)
          | Ok f =>
              match contribution name r with
              | Raise e => (S k, files ++ [f], Raise e)
              | Ok (v, s, w) =>
                  gather x names' (S k) (files ++ [f])
                         (mk_gathered (g_values g ++ v) (g_residuals g ++ s) (g_variances g ++ w))
              end
          end
      end
  end.

(** L251-254: the last measurement was a line. *)
Fixpoint deal_line (ps : list label) (values variances : list num) (out : series * series) : series * series :=
  match ps, values, variances with
  | p :: ps', v :: vs', w :: ws' => deal_line ps' vs' ws' (set_label p v (fst out), set_label p w (snd out))
  | _, _, _ => out
  end.
(** L255-265. *)
Fixpoint deal_plain (error reference : series) (ps : list label) (values residuals : list num) (out : series * series)
  : res (series * series) :=
  match ps, values, residuals with
  | p :: ps', v :: vs', s :: ss' =>
      match lookup p error with
      | None => Raise KeyError
      | Some e =>
          let next w := deal_plain error reference ps' vs' ss' (set_label p v (fst out), set_label p w (snd out)) in
          if isna s then next e
          else match lookup p reference with
               | None => Raise KeyError
               | Some r => if isna r then next e else next (ndiv (nmul e s) r)
               end
      end
  | _, _, _ => Ok out
  end.

Section Evaluate.
Variable x : experiment.
Variable names : list string.          (* names of the measurements *)
Variable parameters : list label.
Variable reference : series.           (* [_reference_residual_sum] *)

Definition nan_series : series := map (fun p => (p, NaN)) parameters.

(** [evaluate], L211-269, once [_error] is set. *)
Definition evaluate_known (error : series) (s : passthru) : passthru * res (series * series) :=
  match gather x names (pt_done s) [] (mk_gathered [] [] []) with
  | (k, files, Raise e) => (mk_passthru (pt_error s) files (pt_count s) (pt_x s) (pt_y s) k, Raise e)
  | (k, files, Ok g) =>
      let out := (nan_series, nan_series) in
      let dealt :=
        match names with
        | [] => Raise NameError
        | _ => if String.eqb (last names ""%string) "line" then Ok (deal_line parameters (g_values g) (g_variances g) out)
               else deal_plain error reference parameters (g_values g) (g_residuals g) out
        end in
      match dealt with
      | Raise e => (mk_passthru (pt_error s) files (pt_count s) (pt_x s) (pt_y s) k, Raise e)
      | Ok out' => (mk_passthru (pt_error s) files (S (pt_count s)) [pt_count s] (map snd (fst out')) k, Ok out')
      end
  end.

(** [DataFrame.var(0)] of one column: NaN entries are left out, divisor n - 1. *)
Definition sample_variance (vs : list num) : num :=
  let m := nanmean vs in
  match non_nan vs with
  | _ :: _ :: _ => ndiv (nsum (map (fun v => nmul (nsub v m) (nsub v m)) (non_nan vs)))
                        (Fin (INR (List.length (non_nan vs) - 1)))
  | _ => NaN
  end.
Fixpoint estimate (n : nat) (s : passthru) : passthru * res (list series) :=
  match n with
  | O => (s, Ok [])
  | S n' =>
      match evaluate_known nan_series s with
      | (s', Raise e) => (s', Raise e)
      | (s', Ok (result, _)) =>
          match estimate n' s' with
          | (s'', Raise e) => (s'', Raise e)
          | (s'', Ok l) => (s'', Ok (result :: l))
          end
      end
  end.
Definition with_error (e : series) (s : passthru) : passthru :=
  mk_passthru (Some e) (pt_files s) (pt_count s) (pt_x s) (pt_y s) (pt_done s).
(** [evaluate_error], L199-209: [_error] is a Series of NaN while the eight
    evaluations run. *)
Definition evaluate_error (s : passthru) : passthru * res unit :=
  match estimate 8 (with_error nan_series s) with
  | (s', Raise e) => (s', Raise e)
  | (s', Ok rows) =>
      (with_error (map (fun p => (p, sample_variance (map (get p) rows))) parameters) s', Ok tt)
  end.
(** [evaluate], L211-269. *)
Definition evaluate (s : passthru) : passthru * res (series * series) :=
  match pt_error s with
  | Some e => evaluate_known e s
  | None =>
      match evaluate_error s with
      | (s', Raise e) => (s', Raise e)
      | (s', Ok _) => evaluate_known (match pt_error s' with Some e => e | None => [] end) s'
      end
  end.
(** Repeated evaluations, whether they succeed or not. *)
Fixpoint evaluations (n : nat) (s : passthru) : passthru :=
  match n with O => s | S n' => evaluations n' (fst (evaluate s)) end.
End Evaluate.
