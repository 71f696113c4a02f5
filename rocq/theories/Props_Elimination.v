(** Property C35: elimination trees.  Statements use the model, [Spec_Sparse.v],
    [Spec_Forest.v] and [Spec_Elimination.v] only. *)
From Coq Require Import List Arith Bool Lia.
From Verif Require Import Outcome Lib ModelSparse Spec_Sparse Spec_Forest ModelForest ModelCholesky Spec_Elimination
  Proofs_Format Proofs_Forest Proofs_Elimination.
Import ListNotations.

(** For a symmetric matrix given by its upper triangle *)
Theorem C35_symmetric : forall s, well_formed s ->
  exists parents, elimination_tree true s = Done parents /\ length parents = s_ncols s /\
  forall k o, nth_error parents k = Some o ->
    elimination_parent (linked_symmetric s) (s_ncols s) k o /\ first_entry (linked_symmetric s) (s_ncols s) k o.
Proof.
  intros s W. destruct (symmetric_ok s W) as (ps & E & L & H). exists ps. split; [exact E|]. split; [exact L|].
  intros k o Hk. split; [apply H; exact Hk|]. apply (first_entries _ _ ps L H). exact Hk.
Qed.
Print Assumptions C35_symmetric.

(** For [A^T A], without forming it *)
Theorem C35_product : forall s, well_formed s ->
  exists parents, elimination_tree false s = Done parents /\ length parents = s_ncols s /\
  forall k o, nth_error parents k = Some o ->
    elimination_parent (linked_product s) (s_ncols s) k o /\ first_entry (linked_product s) (s_ncols s) k o.
Proof.
  intros s W. destruct (product_ok s W) as (ps & E & L & H). exists ps. split; [exact E|]. split; [exact L|].
  intros k o Hk. split; [apply H; exact Hk|]. apply (first_entries _ _ ps L H). exact Hk.
Qed.
Print Assumptions C35_product.

(** The result is a forest, so the post-order and depth levels of properties C33
    and C34 are defined for it. *)
Theorem C35_forest : forall symmetric s, well_formed s ->
  exists parents, elimination_tree symmetric s = Done parents /\ forest parents.
Proof.
  intros [|] s W.
  - destruct (symmetric_ok s W) as (ps & E & L & H). exists ps. split; [exact E|].
    exact (elimination_forest _ _ ps L H).
  - destruct (product_ok s W) as (ps & E & L & H). exists ps. split; [exact E|].
    exact (elimination_forest _ _ ps L H).
Qed.
Print Assumptions C35_forest.

(** Columns {0,1}, {2}, {0,3}, {1,2,3}: column 0 reaches 2 directly (row 0);
    column 1 reaches 3 (row 2); column 2 reaches 3 (row 3).  As a symmetric
    matrix: column 0 has entry (0,2); 1 has entry (1,3); 2 has entry (2,3). *)
Definition example_columns : structure := Structure 4 4 [0; 1; 2; 0; 3; 1; 2; 3] [0; 2; 3; 5; 8].
Example C35_example :
  well_formed example_columns /\
  elimination_tree false example_columns = Done [Some 2; Some 3; Some 3; None] /\
  elimination_tree true example_columns = Done [Some 2; Some 3; Some 3; None].
Proof.
  split; [|split; vm_compute; reflexivity].
  apply (try_from_data_ok 4 4 [0; 1; 2; 0; 3; 1; 2; 3] [0; 2; 3; 5; 8]). vm_compute. reflexivity.
Qed.
