(** Properties of eval.F1 (C36, C37). *)
From Coq Require Import String List NArith ZArith QArith Bool.
From Verif Require Import PyStr PyList PyExn EvalModel EvalSpec EvalProofs.
Import ListNotations.
Local Close Scope Q_scope.
Local Open Scope nat_scope.
Local Open Scope string_scope.
Local Open Scope list_scope.

(** C36: find_lcs always returns, and its result is a longest common subsequence. *)
Theorem C36_find_lcs : forall x y : list str,
  exists l, find_lcs x y = Ok l /\ longest_common l x y.
Proof. exact find_lcs_ok. Qed.
Print Assumptions C36_find_lcs.

Example C36_example :
  find_lcs [s "a"; s "b"; s "c"; s "d"] [s "a"; s "c"; s "b"; s "e"; s "d"] = Ok [s "a"; s "c"; s "d"].
Proof. vm_compute. reflexivity. Qed.

(** C37: what is counted, for any list of (predicted, gold) sentences and any focus. *)
Theorem C37_counts : forall (focus : option (str -> bool)) (l : list (list str * list str)),
  exists st zs,
    f1_trees focus f1_init l = Ok st /\ Forall2 (alignment focus) zs l /\
    let F x := filter (focused focus) (concat x) in
    f_correct st = length (F zs) /\ f_pred st = length (F (map fst l)) /\ f_gold st = length (F (map snd l)) /\
    forall t, f_ncommon st t = occurrences t (F zs) /\
              f_npred st t = occurrences t (F (map fst l)) /\ f_ngold st t = occurrences t (F (map snd l)).
Proof. exact f1_counts. Qed.
Print Assumptions C37_counts.

(** C37: the number of correct tokens never exceeds the number of predicted or gold tokens,
    in total and for each token, and the scores lie between 0 and 1. *)
Theorem C37_sound : forall (focus : option (str -> bool)) (l : list (list str * list str)),
  exists st, f1_trees focus f1_init l = Ok st /\
    f_correct st <= f_pred st /\ f_correct st <= f_gold st /\
    (forall t, f_ncommon st t <= f_npred st t /\ f_ncommon st t <= f_ngold st t) /\
    (0 <= precision (f_correct st) (f_pred st) <= 1)%Q /\
    (0 <= recall (f_correct st) (f_gold st) <= 1)%Q /\
    (0 <= f1_score (f_correct st) (f_pred st) (f_gold st) <= 1)%Q.
Proof. exact f1_sound. Qed.
Print Assumptions C37_sound.

(** C37: identical trees give F1 = 1, provided there is a token to be counted. *)
Theorem C37_identical : forall (focus : option (str -> bool)) (l : list (list str)),
  exists st,
    f1_trees focus f1_init (map (fun x => (x, x)) l) = Ok st /\
    f_correct st = length (filter (focused focus) (concat l)) /\
    f_pred st = f_correct st /\ f_gold st = f_correct st /\
    ((exists t, In t (concat l) /\ focused focus t = true) ->
     (f1_score (f_correct st) (f_pred st) (f_gold st) == 1)%Q).
Proof. exact f1_identical. Qed.
Print Assumptions C37_identical.

(** C37: F1 = 1 only if all predicted and all gold tokens are correct. *)
Theorem C37_one_iff : forall c p g : nat, c <= p -> c <= g ->
  ((f1_score c p g == 1)%Q <-> (1 <= c /\ c = p /\ c = g)).
Proof. exact f1_one_iff. Qed.
Print Assumptions C37_one_iff.

(** The example of the source code: with focus on the comma, "a , c" and "a c ," agree in no comma;
    without focus two of three tokens are correct. *)
Definition comma (t : str) : bool := str_eqb t (s ",").
Definition C37_sentences : list (list str * list str) := [([s "a"; s ","; s "c"], [s "a"; s "c"; s ","])].
Example C37_example :
  (exists st, f1_trees (Some comma) f1_init C37_sentences = Ok st /\
              f_correct st = 0 /\ f_pred st = 1 /\ f_gold st = 1) /\
  (exists st, f1_trees None f1_init C37_sentences = Ok st /\
              f_correct st = 2 /\ f_pred st = 3 /\ f_gold st = 3 /\ (f1_score 2 3 3 == 2 # 3)%Q) /\
  (exists st, f1_trees (Some comma) f1_init [([s ","; s "x"; s ","], [s ","; s "y"; s ","])] = Ok st /\ f_correct st = 2).
Proof.
  split; [|split].
  - eexists. split; [vm_compute; reflexivity|]. auto.
  - eexists. split; [vm_compute; reflexivity|]. repeat split; vm_compute; reflexivity.
  - eexists. split; [vm_compute; reflexivity|]. auto.
Qed.
