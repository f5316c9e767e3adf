(** The two linear algebra helpers of qtune/util.py on arrays of floats.  What
    numpy and sympy compute is an argument. *)
From Verif Require Import PyBase TargetModel TunerModel NewtonModel EstimatorModel.

(** Arrays as used in qtune/util.py L175-208: [a - b], columns, [M.T] for [n]
    columns, [a @ b], [v @ M]. *)
Definition vsub (a b : list num) : list num := map (fun q => nsub (fst q) (snd q)) (combine a b).
Definition column (j : nat) (M : list (list num)) : list num := map (fun r => nth j r NaN) M.
Definition transpose (n : nat) (M : list (list num)) : list (list num) := map (fun j => column j M) (seq 0 n).
Definition ndot (a b : list num) : num := fold_right nadd (Fin 0) (map (fun q => nmul (fst q) (snd q)) (combine a b)).
Definition vecmat (n : nat) (v : list num) (M : list (list num)) : list num := map (fun j => ndot v (column j M)) (seq 0 n).
(** [X.T @ np.diag(v) @ X], qtune/util.py L196. *)
Definition sandwich (n : nat) (X : list (list num)) (v : list num) : list (list num) :=
  map (fun i => map (fun j => ndot (map (fun q => nmul (fst q) (snd q)) (combine (column i X) v)) (column j X)) (seq 0 n)) (seq 0 n).

(** qtune/util.py L175-182 and L191-195: all elements but the first one
    combined with the first one, or the elements with odd positions combined
    with the ones before them. *)
Definition against {A B} (f : A -> A -> B) (n_dim : nat) (l : list A) : option (list B) :=
  if Nat.eqb (length l) (n_dim + 1) then
    match l with [] => Some [] | a0 :: l' => Some (map (fun a => f a a0) l') end
  else if Nat.eqb (length l) (2 * n_dim) then Some (map (fun q => f (fst q) (snd q)) (combine (odds l) (evens l)))
  else None.

Section Library.
(** [np.linalg.inv], qtune/util.py L184, and [sympy.Matrix.nullspace],
    qtune/util.py L204. *)
Variable inv : list (list num) -> res (list (list num)).
Variable nullspace : list (list num) -> list (list num).

(** qtune/util.py L160-199 [calculate_gradient_non_orthogonal], called with
    variances (qtune/gradient.py L197-206).  Simplification: the positions are
    over the same gates, at least one. *)
Definition calculate_gradient (ms : list measurement) : res (list num * list (list num)) :=
  match ms with
  | [] => Raise IndexError
  | m0 :: _ =>
      let n := length (m_pos m0) in
      match against vsub n (map (fun m => map snd (m_pos m)) ms), against nsub n (map (fun m => snd (fst m)) ms), against nadd n (map snd ms) with
      | Some d, Some p, Some v =>
          match inv (transpose n d) with
          | Raise LinAlgError => Raise EvaluationError
          | Raise e => Raise e
          | Ok X => Ok (vecmat n p X, sandwich n X v)
          end
      | _, _, _ => Raise RuntimeError
      end
  end.

(** qtune/util.py L202-208 [get_orthogonal_vector]; [ov, *_ = []] is a
    ValueError.  Simplification: for a single gate the code returns a number
    ([np.squeeze], L207), here an array with one element. *)
Definition get_orthogonal_vector (vectors : list (list num)) : res (list num) :=
  match nullspace vectors with
  | [] => Raise ValueError
  | ov :: _ => Ok (map (fun x => ndiv x (nsqrt (ndot ov ov))) ov)
  end.
End Library.
