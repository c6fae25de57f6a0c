(** Specification of sentence splitting. *)
From Coq Require Import String List NArith ZArith Bool.
From Verif Require Import PyStr PyList PyExn TreeModel BundleModel BundleSpec SegModel.
Import ListNotations.

(** The tokens are grouped: groups are not empty, there is no boundary inside a group, and there is one between
    any two neighbouring groups. *)
Definition cut_at (bd : str -> str -> bool) (groups : list (list str)) : Prop :=
  (forall g, In g groups -> g <> []) /\
  (forall g1 a b g2, In (g1 ++ a :: b :: g2) groups -> bd a b = false) /\
  (forall G1 g a b h G2, groups = G1 ++ (g ++ [a]) :: (b :: h) :: G2 -> bd a b = true).

(** The texts of the trees with zone z, in document order. *)
Definition zone_texts (g : seg) (bundles : list nat) (z : str) : list (option str) :=
  flat_map (fun b => map (g_text g) (filter (zone_is (g_s g) z) (b_trees (g_s g) b))) bundles.
(** What each tree's text should become. *)
Definition pieces (keep : bool) (bd : str -> str -> bool) (sel : nat -> bool) (g : seg) (t : nat) : list (option str) :=
  match g_text g t with
  | Some x => if sel t then map Some (segment_string keep bd x) else [Some x]
  | None => [None]
  end.
Definition zone_pieces (keep : bool) (bd : str -> str -> bool) (sel : nat -> bool) (g : seg) (bundles : list nat) (z : str) : list (option str) :=
  flat_map (fun b => flat_map (pieces keep bd sel g) (filter (zone_is (g_s g) z) (b_trees (g_s g) b))) bundles.
