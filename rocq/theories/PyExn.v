(** Python exceptions and results of Python calls. *)

(** Python exceptions that the modelled code can raise.  [OtherError] stands
    for any exception coming out of user supplied code (experiment, evaluator). *)
Inductive exn :=
| RuntimeError | KeyError | IndexError | ValueError | AssertionError
| TypeError | ZeroDivisionError | AttributeError | NameError | RecursionError | OverflowError | EvaluationError | LinAlgError
| OtherError (n : nat).

(** Result of a Python call: a value or a raised exception. *)
Inductive res (A : Type) :=
| Ok (a : A)
| Raise (e : exn).
Arguments Ok {A} a.
Arguments Raise {A} e.
