(** Small trees used in the examples beside the theorems. *)
From Coq Require Import String List NArith ZArith Bool Lia.
From Verif Require Import PyStr PyList PyExn TreeModel TreeSpec TreeProps.
Import ListNotations.

(** [planted ps]: root 0 and words 1..n, the i-th word hanging on node (nth i ps). *)
Definition plant_ops (ps : list nat) : list tree_op :=
  map (fun _ => OpCreate 0) ps ++ map (fun ip => OpParent (fst ip) (Some (snd ip))) (combine (seq 1 (length ps)) ps).
Definition planted (ps : list nat) : heap := fold_left (fun h o => fst (tree_step h o)) (plant_ops ps) (fst (new_root heap0)).
Ltac planted_ok :=
  match goal with |- consistent (planted ?ps) 0 => apply (world_consistent [0] (planted ps)); [|simpl; auto] end;
  unfold planted, plant_ops; cbn [map combine seq length app fold_left fst snd];
  repeat (apply (world_op [0] _ 0); [|simpl; auto|vm_compute; intuition (auto 20)]);
  apply (world_new [] heap0); constructor.
