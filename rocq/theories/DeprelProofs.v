From Coq Require Import String List NArith ZArith Bool Lia.
From Verif Require Import PyStr PyStrFacts PyList PyListFacts DeprelModel.
Import ListNotations.

Lemma udeprel_Some d : exists u, udeprel (Some d) = Some u /\ ~ In COLON u /\
  ((d = u /\ sdeprel (Some d) = Some []) \/
   exists r, d = u ++ COLON :: r /\ sdeprel (Some d) = Some r).
Proof.
  unfold udeprel, sdeprel. destruct (split1 COLON d) as [[l r]|] eqn:E.
  - apply split1_Some in E as [-> Hl]. rewrite split_app by auto.
    exists l. repeat split; auto. right; eauto.
  - apply split1_None in E. rewrite split_nochar by auto. exists d. auto.
Qed.
Lemma udeprel_nocolon d u : udeprel d = Some u -> ~ In COLON u.
Proof.
  destruct d as [d|]; [|discriminate]. destruct (udeprel_Some d) as [u' [-> [H _]]]. congruence.
Qed.
Lemma udeprel_app u r : ~ In COLON u -> udeprel (Some (u ++ COLON :: r)) = Some u /\
  sdeprel (Some (u ++ COLON :: r)) = Some r.
Proof.
  intros H. unfold udeprel, sdeprel. rewrite split_app, split1_app by auto. auto.
Qed.
Lemma udeprel_plain u : ~ In COLON u -> udeprel (Some u) = Some u /\ sdeprel (Some u) = Some [].
Proof.
  intros H. unfold udeprel, sdeprel. rewrite split_nochar by auto.
  assert (split1 COLON u = None) as -> by now apply split1_None. auto.
Qed.

Lemma set_udeprel_spec d v : ~ In COLON v ->
  udeprel (set_udeprel d v) = Some v /\
  sdeprel (set_udeprel d v) = match sdeprel d with Some r => Some r | None => Some [] end.
Proof.
  intros H. unfold set_udeprel. destruct (sdeprel d) as [[|a r]|].
  - now apply udeprel_plain.
  - now apply udeprel_app.
  - now apply udeprel_plain.
Qed.
Lemma set_sdeprel_spec d v : exists d',
  set_sdeprel (Some d) v = Some (Some d') /\
  udeprel (Some d') = udeprel (Some d) /\
  sdeprel (Some d') = match v with Some r => Some r | None => Some [] end.
Proof.
  destruct (udeprel_Some d) as [u [E [Hu _]]]. unfold set_sdeprel. rewrite E.
  destruct v as [[|a r]|]; eexists; split; try reflexivity.
  - now apply udeprel_plain.
  - now apply udeprel_app.
  - now apply udeprel_plain.
Qed.
Lemma set_sdeprel_None v :
  set_sdeprel None v = match v with Some (_ :: _) => None | _ => Some None end.
Proof. destruct v as [[|a r]|]; auto. Qed.
Lemma reset_udeprel d u : udeprel (Some d) = Some u -> (forall x, ~ In COLON x -> d <> x ++ [COLON]) ->
  set_udeprel (Some d) u = Some d.
Proof.
  intros E Hs. destruct (udeprel_Some d) as [u' [E' [Hu [[Hd S]|[r [Hd S]]]]]];
    rewrite E in E'; injection E' as <-; unfold set_udeprel; rewrite S; auto.
  - congruence.
  - destruct r as [|a r]; [|now rewrite Hd].
    exfalso. apply (Hs u); auto.
Qed.
Lemma reset_sdeprel d r : sdeprel (Some d) = Some r -> (forall x, ~ In COLON x -> d <> x ++ [COLON]) ->
  set_sdeprel (Some d) (Some r) = Some (Some d).
Proof.
  intros E Hs. destruct (udeprel_Some d) as [u [E' [Hu [[Hd S]|[r' [Hd S]]]]]];
    rewrite E in S; injection S as ->; unfold set_sdeprel; rewrite E'.
  - congruence.
  - destruct r' as [|a r']; [|now rewrite Hd]. exfalso. apply (Hs u); auto.
Qed.
Lemma deprel_parts d : exists u r,
  udeprel (Some d) = Some u /\ sdeprel (Some d) = Some r /\
  (d = u /\ r = [] \/ d = u ++ COLON :: r).
Proof.
  destruct (udeprel_Some d) as [u [E [_ [[H1 H2]|[r [H1 H2]]]]]]; eauto 10.
Qed.
