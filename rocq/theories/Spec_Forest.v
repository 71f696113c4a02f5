(** Rooted forests given by a parent for every node *)
From Coq Require Import List Arith Permutation.
Import ListNotations.

(** [p] is the parent of [v]. *)
Definition parent (ps : list (option nat)) (v p : nat) : Prop := nth_error ps v = Some (Some p).
Definition root (ps : list (option nat)) (v : nat) : Prop := nth_error ps v = Some None.

(** [u] is in the subtree of [v]: [v] is [u] or an ancestor of [u]. *)
Inductive below_node (ps : list (option nat)) : nat -> nat -> Prop :=
| below_refl v : below_node ps v v
| below_step u p v : parent ps u p -> below_node ps p v -> below_node ps u v.

(** Following parents from any node ends at a root. *)
Definition forest (ps : list (option nat)) : Prop :=
  forall v, v < length ps -> exists r, below_node ps v r /\ root ps r.

(** [v] has [d] proper ancestors. *)
Inductive depth (ps : list (option nat)) : nat -> nat -> Prop :=
| depth_root v : root ps v -> depth ps v 0
| depth_child v p d : parent ps v p -> depth ps p d -> depth ps v (S d).

(** Every node once; every subtree contiguous and ending in its root (so that
    children come before their parents). *)
Record is_post_order (ps : list (option nat)) (post : list nat) : Prop := IsPostOrder {
  po_nodes : Permutation post (seq 0 (length ps));
  po_subtrees : forall v, v < length ps -> exists before subtree after,
    post = before ++ subtree ++ [v] ++ after /\
    forall u, In u (subtree ++ [v]) <-> below_node ps u v;
  po_parents : forall v p, parent ps v p -> exists before between after,
    post = before ++ [v] ++ between ++ [p] ++ after
}.
