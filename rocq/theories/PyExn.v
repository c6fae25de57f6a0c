(** Results of Python calls: a value, an exception, or no termination.
    [Diverge] is returned only when the fuel of a [while] loop is used up. *)
From Coq Require Import List.

Inductive exn :=
| ValueError | CycleError | AttributeError | IndexError | TypeError | KeyError
| NotImplementedError | RuntimeError | NameError.

Inductive res (A : Type) :=
| Ok (a : A)
| Raise (e : exn)
| Diverge.
Arguments Ok {A} a.
Arguments Raise {A} e.
Arguments Diverge {A}.

(** Sequencing of state-changing calls: the state reached before an exception is kept. *)
Definition bind {S A B} (m : S * res A) (k : S -> A -> S * res B) : S * res B :=
  match m with
  | (h, Ok a) => k h a
  | (h, Raise e) => (h, Raise e)
  | (h, Diverge) => (h, Diverge)
  end.
Definition rbind {A B} (m : res A) (k : A -> res B) : res B :=
  match m with
  | Ok a => k a
  | Raise e => Raise e
  | Diverge => Diverge
  end.
