(** When trees are read one by one, it does not matter whether the reader implements read_trees (C29). *)
From Coq Require Import String List NArith ZArith Bool Lia.
From Verif Require Import PyStr PyList PyListFacts PyExn TreeModel BundleModel ReaderModel ReaderSpec ReaderTextSpec.
Import ListNotations.

Section W.
Context {A : Type}.
Implicit Types (r : reader A) (o : opts).
Notation one := (@one_by_one A).
Definition strip r : reader A :=
  mkReader (rd_store r) (rd_newdoc r) (rd_content r) (map one (rd_files r)) (rd_number r) (rd_given r)
    (option_map one (rd_handle r)) (rd_buffer r) (rd_finished r) (rd_docs r).
Definition both {B} (x : reader A * B) : reader A * B := (strip (fst x), snd x).

Lemma alloc_strip r it : alloc (strip r) it = both (alloc r it).
Proof. reflexivity. Qed.
Lemma filtered_strip flt b l : forall sk r, filtered_from flt sk (strip r) None l = both (filtered_from flt sk r b l).
Proof.
  induction l as [|[it|] l IH]; intros sk r; cbn [filtered_from]; try reflexivity.
  rewrite alloc_strip. unfold both. destruct (alloc r it) as [r1 t]. cbn [fst snd]. destruct flt as [f|]; [|reflexivity].
  change (rd_store (strip r1)) with (rd_store r1). change (rd_newdoc (strip r1)) with (rd_newdoc r1).
  destruct (f _); [|apply IH]. destruct (_ && _); reflexivity.
Qed.
Lemma read_strip o r : filtered_read_tree o (strip r) = both (filtered_read_tree o r).
Proof. unfold filtered_read_tree. cbn [strip rd_handle]. destruct (rd_handle r) as [f|]; cbn [option_map]; [|reflexivity]. apply filtered_strip. Qed.
Lemma prepare_strip o r t la : prepare o (strip r) t la = both (prepare o r t la).
Proof.
  unfold prepare. change (rd_store (strip r)) with (rd_store r). destruct (if o_ignore o then _ else _) as [s [l1 l2]]. reflexivity.
Qed.
Lemma fresh_strip r d la : fresh_bundle (strip r) d la = both (fresh_bundle r d la).
Proof. unfold fresh_bundle. change (rd_store (strip r)) with (rd_store r). destruct (create_bundle _ _). reflexivity. Qed.
Lemma add_strip r b t : add_to (strip r) b t = both (add_to r b t).
Proof. unfold add_to. change (rd_store (strip r)) with (rd_store r). destruct (add_tree _ _ _). reflexivity. Qed.
Lemma next_strip r : next_handle (strip r) = strip (next_handle r).
Proof.
  unfold next_handle, strip, with_handle. cbn. rewrite nth_error_map. destruct (rd_given r && _); reflexivity.
Qed.
Lemma has_next_strip r : has_next (strip r) = has_next r.
Proof. unfold has_next. cbn. now rewrite map_length. Qed.
Lemma bind_both {B C} (m : reader A * res B) (k k' : reader A -> B -> reader A * res C) :
  (forall r x, k (strip r) x = both (k' r x)) -> bind (both m) k = both (bind m k').
Proof. intros H. destruct m as [r [x| |]]; cbn; auto. Qed.
Lemma place_strip o r d orig bundle la add t : place o (strip r) d orig bundle la add t = both (place o r d orig bundle la add t).
Proof.
  unfold place. cbv zeta. change (rd_newdoc (strip r)) with (rd_newdoc r). change (over_max o (strip r)) with (over_max o r).
  set (nd := truthy (rd_newdoc r t)). destruct (nd && over_max o r); [reflexivity|]. destruct (nd && _ && _); [reflexivity|].
  replace (if nd then with_docs (strip r) (S (rd_docs (strip r))) else strip r) with (strip (if nd then with_docs r (S (rd_docs r)) else r)) by (destruct nd; reflexivity).
  set (r1 := if nd then with_docs r (S (rd_docs r)) else r).
  assert (PUT : forall r1 orig b, bind (add_to (strip r1) b t) (fun r _ =>
      match is_full o r b with
      | Ok true => if o_multi o then (r, Ok (Placed orig b)) else (r, Ok (Full b))
      | Ok false => (r, Ok (Placed orig b))
      | Raise e => (r, Raise e)
      | Diverge => (r, Diverge)
      end) = both (bind (add_to r1 b t) (fun r _ =>
      match is_full o r b with
      | Ok true => if o_multi o then (r, Ok (Placed orig b)) else (r, Ok (Full b))
      | Ok false => (r, Ok (Placed orig b))
      | Raise e => (r, Raise e)
      | Diverge => (r, Diverge)
      end))).
  { intros r2 orig2 b. rewrite add_strip. apply bind_both. intros r3 _. change (is_full o (strip r3) b) with (is_full o r3 b).
    destruct (is_full o r3 b) as [[|]| |]; [destruct (o_multi o)|..]; reflexivity. }
  assert (NEXT : match orig with
                  | b :: orig => bind (add_to (strip r1) b t) (fun r _ =>
      match is_full o r b with
      | Ok true => if o_multi o then (r, Ok (Placed orig b)) else (r, Ok (Full b))
      | Ok false => (r, Ok (Placed orig b))
      | Raise e => (r, Raise e)
      | Diverge => (r, Diverge)
      end)
                  | [] => let (r, b) := fresh_bundle (strip r1) d la in bind (add_to r b t) (fun r _ =>
      match is_full o r b with
      | Ok true => if o_multi o then (r, Ok (Placed [] b)) else (r, Ok (Full b))
      | Ok false => (r, Ok (Placed [] b))
      | Raise e => (r, Raise e)
      | Diverge => (r, Diverge)
      end)
                  end = both (match orig with
                  | b :: orig => bind (add_to r1 b t) (fun r _ =>
      match is_full o r b with
      | Ok true => if o_multi o then (r, Ok (Placed orig b)) else (r, Ok (Full b))
      | Ok false => (r, Ok (Placed orig b))
      | Raise e => (r, Raise e)
      | Diverge => (r, Diverge)
      end)
                  | [] => let (r, b) := fresh_bundle r1 d la in bind (add_to r b t) (fun r _ =>
      match is_full o r b with
      | Ok true => if o_multi o then (r, Ok (Placed [] b)) else (r, Ok (Full b))
      | Ok false => (r, Ok (Placed [] b))
      | Raise e => (r, Raise e)
      | Diverge => (r, Diverge)
      end)
                  end)).
  { destruct orig as [|b orig]; [|apply PUT]. rewrite fresh_strip. destruct (fresh_bundle r1 d la) as [r2 b]. unfold both at 1. cbn [fst snd]. apply PUT. }
  destruct bundle as [b|]; [|apply NEXT]. destruct add; [apply PUT|]. change (is_full o (strip r1) b) with (is_full o r1 b).
  destruct (is_full o r1 b) as [[|]| |]; try reflexivity. apply NEXT.
Qed.
Lemma slow_strip fl : forall o r d orig bundle la loaded, slow_loop fl o (strip r) d orig bundle la loaded = both (slow_loop fl o r d orig bundle la loaded).
Proof.
  induction fl as [|fl IH]; intros o r d orig bundle la loaded; cbn [slow_loop]; [reflexivity|]. rewrite read_strip.
  destruct (filtered_read_tree o r) as [r1 [t|]]; unfold both at 1; cbn [fst snd].
  - change (rd_newdoc (strip r1)) with (rd_newdoc r1). change (over_max o (strip r1)) with (over_max o r1). destruct (_ && over_max o r1); [reflexivity|].
    replace (if negb loaded && negb (truthy (rd_newdoc r1 t)) then with_docs (strip r1) (S (rd_docs (strip r1))) else strip r1)
      with (strip (if negb loaded && negb (truthy (rd_newdoc r1 t)) then with_docs r1 (S (rd_docs r1)) else r1)) by (destruct (_ && _); reflexivity).
    set (r2 := if negb loaded && negb (truthy (rd_newdoc r1 t)) then with_docs r1 (S (rd_docs r1)) else r1).
    rewrite prepare_strip. destruct (prepare o r2 t la) as [r3 [la' add]]. unfold both at 1. cbn [fst snd]. rewrite place_strip. apply bind_both.
    intros r4 [| | |orig' b]; try reflexivity. apply IH.
  - rewrite has_next_strip. destruct (_ && has_next r1); [|reflexivity]. rewrite next_strip. apply IH.
Qed.
Lemma take_strip r d orig : take_buffer (strip r) d orig = both (take_buffer r d orig).
Proof.
  unfold take_buffer. change (rd_buffer (strip r)) with (rd_buffer r). destruct (rd_buffer r) as [t|] eqn:EB; [|reflexivity].
  fold (strip r). change (with_buffer (strip r) (@None nat)) with (strip (with_buffer r None)). set (r1 := with_buffer r None). cbv zeta.
  assert (E : forall r2 orig b, bind (add_to (strip r2) b t) (fun r _ => ((if truthy (rd_newdoc r t) then with_docs r (S (rd_docs r)) else r), Ok (orig, Some b)))
    = both (bind (add_to r2 b t) (fun r _ => ((if truthy (rd_newdoc r t) then with_docs r (S (rd_docs r)) else r), Ok (orig, Some b) : res (list nat * option nat))))).
  { intros r2 orig2 b. rewrite add_strip. apply bind_both. intros r3 _. change (rd_newdoc (strip r3)) with (rd_newdoc r3). destruct (truthy _); reflexivity. }
  destruct orig as [|b orig]; [|apply E]. change (rd_store (strip r1)) with (rd_store r1). destruct (create_bundle (rd_store r1) d) as [s b].
  change (with_store (strip r1) ?s) with (strip (with_store r1 s)). apply E.
Qed.
Lemma fuel_strip r : fuel (strip r) = fuel r.
Proof.
  unfold fuel. cbn [strip rd_files rd_handle]. rewrite map_map, map_length. change (fun x => file_size (one x)) with (@file_size A).
  destruct (rd_handle r); reflexivity.
Qed.
Definition unbatched o : Prop := o_bpd o <> 0 \/ o_filter o <> None \/ o_split o = true.
Lemma process_strip o r d : unbatched o -> process_document o (strip r) d = both (process_document o r d).
Proof.
  intros H. unfold process_document, try_fast_load.
  assert (E : forall b, b || negb (o_bpd o =? 0) || (match o_filter o with Some _ => true | None => false end) || o_split o = true).
  { intros b. destruct H as [H|[H|H]]; [apply Nat.eqb_neq in H; rewrite H; destruct b, (o_filter o), (o_split o); auto
    |destruct (o_filter o); [destruct b, (o_bpd o =? 0), (o_split o); auto|congruence]|rewrite H; now rewrite !orb_true_r]. }
  rewrite !E. cbn [bind]. change (rd_store (strip r)) with (rd_store r). rewrite take_strip. apply bind_both. intros r1 [orig bundle].
  replace (match rd_handle (strip r1) with None => next_handle (strip r1) | Some _ => strip r1 end)
    with (strip (match rd_handle r1 with None => next_handle r1 | Some _ => r1 end)).
  2: { cbn [strip rd_handle]. destruct (rd_handle r1); cbn [option_map]; [reflexivity|now rewrite next_strip]. }
  set (r2 := match rd_handle r1 with None => next_handle r1 | Some _ => r1 end). cbn [strip rd_handle]. change (mkReader _ _ _ _ _ _ _ _ _ _) with (strip r2).
  destruct (rd_handle r2); cbn [option_map]; [|reflexivity]. rewrite fuel_strip. apply slow_strip.
Qed.
Lemma documents_strip o : unbatched o -> forall fl r docs, read_documents fl o no_after (strip r) docs = both (read_documents fl o no_after r docs).
Proof.
  intros H. induction fl as [|fl IH]; intros r docs; cbn [read_documents]; change (rd_finished (strip r)) with (rd_finished r); destruct (rd_finished r); try reflexivity.
  change (rd_store (strip r)) with (rd_store r). destruct (new_document (rd_store r)) as [s d].
  change (with_store (strip r) s) with (strip (with_store r s)). rewrite process_strip by auto. apply bind_both. intros r1 _.
  unfold no_after at 1 3. cbn [bind]. apply IH.
Qed.
Theorem unbatched_same o (files : list (file A)) fl : unbatched o ->
  same_result (read_documents fl o no_after (new_reader files) []) (read_documents fl o no_after (new_reader (map one_by_one files)) []).
Proof.
  intros H. unfold same_result. change (new_reader (map one_by_one files)) with (strip (new_reader files)). rewrite documents_strip by auto. auto.
Qed.
End W.
