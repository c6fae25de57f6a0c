(** C18, C19, C56: multi-word tokens and the text of a tree. *)
From Coq Require Import String List NArith ZArith Bool Lia.
From Verif Require Import PyStr PyList PyListFacts PyExn TreeModel TreeSpec TreeProps TreeExamples DualDictModel DualDictSpec DocModel MwtSpec MwtProofs.
Import ListNotations.
Local Open Scope string_scope.
Local Open Scope list_scope.

(** A tree of four words with MISC attributes. *)
Definition word (f m : string) : attrs := mkAttrs (Some (s f)) None None None None None (opt_dd (s m)) (Some US) None.
Definition words4 (x : nat) : attrs :=
  match x with 1 => word "vamos" "_" | 2 => word "nos" "A=1|SpaceAfter=No" | 3 => word "!" "_" | 4 => word "Ya" "_" | _ => no_attrs end.
Definition four : doc := mkDoc (planted [0; 1; 1; 1]) words4 (fun _ => None) (fun _ => []) (fun _ => no_mwt) 0 (fun _ => no_rinfo).
Definition with_mwt : doc := fst (create_multiword_token four 0 [1; 2] (Some (s "vamonos")) (s "_")).
Lemma four_consistent : consistent (d_h four) 0.
Proof. unfold four. cbn [d_h]. planted_ok. Qed.
Lemma attrs_world h f : mwt_world (mkDoc h f (fun _ => None) (fun _ => []) (fun _ => no_mwt) 0 (fun _ => no_rinfo)).
Proof.
  assert (W : mwt_world (with_h doc0 h)) by (apply mw_structure; [constructor|apply Nat.le_0_l]).
  exact (mw_attrs _ f (fun _ => no_rinfo) W).
Qed.
Lemma four_world : mwt_world four.
Proof. apply attrs_world. Qed.
Lemma with_mwt_world : mwt_world with_mwt.
Proof. apply mw_create; [exact four_world|vm_compute; lia|]. intros w [<-|[<-|[]]]; vm_compute; lia. Qed.
Lemma with_mwt_contiguous : contiguous with_mwt 0.
Proof.
  split.
  - intros m I. vm_compute in I. destruct I as [<-|[]]. split; [discriminate|]. exists [], [3; 4]. vm_compute. reflexivity.
  - intros w m I E. vm_compute in I. decompose [or] I; subst; vm_compute in E; try discriminate; try tauto; injection E as <-; vm_compute; tauto.
Qed.

(** C18. *)
Theorem C18_mwts_agree : forall d, mwt_world d -> mwts_agree d.
Proof. exact world_agree. Qed.
Print Assumptions C18_mwts_agree.
Theorem C18_one_mwt_per_word : forall d, mwt_world d -> forall r1 m1 r2 m2 w,
  In m1 (d_mwts d r1) -> In m2 (d_mwts d r2) ->
  In w (m_words (d_m d m1)) -> In w (m_words (d_m d m2)) -> m1 = m2 /\ r1 = r2.
Proof. exact one_mwt. Qed.
Print Assumptions C18_one_mwt_per_word.
(** Creating: the old MWTs that share a word disappear, the others stay, the new one comes last. *)
Theorem C18_create : forall d r ws form misc, mwt_world d ->
  exists d' m, create_multiword_token d r ws form misc = (d', match ws with [] => Raise IndexError | _ => Ok m end) /\
    (forall r', ~ In m (d_mwts d r')) /\
    (forall r', d_mwts d' r' = filter (fun m' => negb (overlaps d ws m')) (d_mwts d r') ++ (if Nat.eqb r' r then [m] else [])) /\
    (forall m', m' <> m -> d_m d' m' = d_m d m') /\
    m_words (d_m d' m) = ws /\ m_form (d_m d' m) = form /\ m_root (d_m d' m) = r /\ d_h d' = d_h d.
Proof. exact create_statement. Qed.
Print Assumptions C18_create.
Theorem C18_remove : forall d m, mwt_world d -> In m (d_mwts d (m_root (d_m d m))) ->
  exists d', mwt_remove d m = (d', Ok tt) /\ d_h d' = d_h d /\ d_at d' = d_at d /\ d_m d' = d_m d /\
    (forall r, d_mwts d' r = filter (fun m' => negb (Nat.eqb m' m)) (d_mwts d r)) /\
    (forall w, d_mwt d' w = match d_mwt d w with
                            | Some m' => if Nat.eqb m' m then None else Some m'
                            | None => None
                            end).
Proof.
  intros d m W I. destruct (mwt_remove_ok d m (world_agree _ W) I) as (d'&E&_&H&AT&M&_&_&L&K). exists d'. auto 10.
Qed.
Print Assumptions C18_remove.
Example C18_example : mwt_world with_mwt /\ d_mwts with_mwt 0 = [0] /\ m_words (d_m with_mwt 0) = [1; 2] /\
  (let d := fst (create_multiword_token with_mwt 0 [2; 3] None []) in
   d_mwts d 0 = [1] /\ d_mwt d 1 = None /\ d_mwt d 2 = Some 1) /\
  (let d := fst (mwt_remove with_mwt 0) in d_mwts d 0 = [] /\ d_mwt d 1 = None).
Proof. split; [exact with_mwt_world|]. vm_compute. auto 10. Qed.
(** MWT.remove called a second time on the same MWT raises, but only after its words, which may
    belong to another MWT by now, have lost their token. *)
Theorem C18_second_remove_refuted : exists d m, mwt_world d /\ mwts_agree d /\ m < d_mnext d /\
  snd (mwt_remove d m) = Raise ValueError /\ ~ mwts_agree (fst (mwt_remove d m)).
Proof.
  exists (fst (create_multiword_token with_mwt 0 [2; 3] None [])), 0.
  assert (W : mwt_world (fst (create_multiword_token with_mwt 0 [2; 3] None []))).
  { apply mw_create; [exact with_mwt_world|vm_compute; lia|]. intros w [<-|[<-|[]]]; vm_compute; lia. }
  split; [exact W|]. split; [exact (world_agree _ W)|]. split; [vm_compute; lia|]. split; [vm_compute; reflexivity|].
  intros A. destruct (ma_listed _ A 0 1) as [_ K]; [vm_compute; auto|]. specialize (K 2).
  vm_compute in K. specialize (K (or_introl eq_refl)). discriminate.
Qed.
Print Assumptions C18_second_remove_refuted.

(** C56. *)
Theorem C56_space_after_moves_to_mwt : forall d r ws form misc w, mwt_world d -> last_opt ws = Some w ->
  (forall x, In x ws -> misc_ok (n_misc (d_at d x))) ->
  exists d' m, create_multiword_token d r ws form misc = (d', Ok m) /\
  (forall x, ~ In x ws -> d_at d' x = d_at d x) /\
  (forall x, In x ws -> same_but_misc (d_at d' x) (d_at d x) /\
     (forall k, k <> s "SpaceAfter" -> misc_get (n_misc (d_at d' x)) k = misc_get (n_misc (d_at d x)) k) /\
     misc_get (n_misc (d_at d' x)) (s "SpaceAfter") = VStr []) /\
  (forall k, k <> s "SpaceAfter" -> misc_get (m_misc (d_m d' m)) k = misc_get (opt_dd misc) k) /\
  (misc_get (n_misc (d_at d w)) (s "SpaceAfter") = VStr (s "No") ->
     misc_get (m_misc (d_m d' m)) (s "SpaceAfter") = VStr (s "No")) /\
  (misc_get (n_misc (d_at d w)) (s "SpaceAfter") <> VStr (s "No") ->
     misc_get (m_misc (d_m d' m)) (s "SpaceAfter") = misc_get (opt_dd misc) (s "SpaceAfter")).
Proof. exact space_statement. Qed.
Print Assumptions C56_space_after_moves_to_mwt.
Example C56_example : mwt_world four /\ last_opt [1; 2] = Some 2 /\
  (forall x, In x [1; 2] -> misc_ok (n_misc (d_at four x))) /\
  misc_get (n_misc (d_at four 2)) (s "SpaceAfter") = VStr (s "No") /\
  misc_get (n_misc (d_at with_mwt 2)) (s "A") = VStr (s "1").
Proof.
  split; [exact four_world|]. split; [reflexivity|]. split; [|vm_compute; auto].
  intros x [<-|[<-|[]]]; simpl; [exact I|]. exists (fun x => x).
  apply (reach _ (Some (MStr (s "A=1|SpaceAfter=No"))) _ []); try reflexivity; constructor.
Qed.

(** C19. *)
Theorem C19_tokens_cover_words : forall d r, consistent (d_h d) r -> mwts_agree d -> contiguous d r ->
  exists ts, token_descendants d r = Ok ts /\ flat_map (token_words d) ts = h_desc (d_h d) r /\
    (forall m, In (TMwt m) ts <-> In m (d_mwts d r)) /\
    ((forall t, In t ts -> token_form d t <> None) ->
     exists x, printed d ts x /\ compute_text d r true = Ok (rstrip x)).
Proof. exact tokens_ok. Qed.
Print Assumptions C19_tokens_cover_words.
Example C19_example : consistent (d_h with_mwt) 0 /\ mwts_agree with_mwt /\ contiguous with_mwt 0 /\
  token_descendants with_mwt 0 = Ok [TMwt 0; TWord 3; TWord 4] /\
  compute_text with_mwt 0 true = Ok (s "vamonos! Ya") /\ compute_text with_mwt 0 false = Ok (s "vamos nos ! Ya").
Proof.
  split; [exact four_consistent|]. split; [exact (world_agree _ with_mwt_world)|]. split; [exact with_mwt_contiguous|].
  vm_compute. auto.
Qed.
