(** Properties C32-C34: permutation sequences and rooted forests.  Statements
    use the model, [Spec_Forest.v] and the standard library only. *)
From Coq Require Import List Arith Bool Lia Permutation.
From Verif Require Import Outcome Lib ModelForest Spec_Forest Proofs_Permutation Proofs_Forest.
Import ListNotations.

(** Building the swap sequence of a permutation [p] succeeds with at most as
    many swaps as [p] has elements, and applying it to any slice at least that
    long puts element [p[i]] at [i] and leaves what lies past the permutation's
    length alone. *)
Theorem C32_gather : forall p, Permutation p (seq 0 (length p)) ->
  exists q, build_for_gather_permutation p = Done q /\ length (ps_swaps q) <= length p /\
  forall A (a : list A), length p <= length a -> exists a', permute_slice q a = Done a' /\
    length a' = length a /\
    (forall i j, nth_error p i = Some j -> nth_error a' i = nth_error a j) /\
    (forall i, length p <= i -> nth_error a' i = nth_error a i).
Proof.
  intros p Hp. destruct (gather_ok p Hp) as (q & E & _ & L & H). exists q. auto.
Qed.
Print Assumptions C32_gather.

(** Applying it to a shorter slice panics, as documented. *)
Theorem C32_short : forall p q A (a : list A), Permutation p (seq 0 (length p)) ->
  build_for_gather_permutation p = Done q -> length a < length p -> permute_slice q a = Panic.
Proof.
  intros p q A a Hp E Ha. destruct (gather_ok p Hp) as (q' & E' & L & _).
  assert (q = q') by congruence. subst q'. unfold permute_slice. rewrite L.
  destruct (Nat.leb_spec (length p) (length a)); [lia|reflexivity].
Qed.
Print Assumptions C32_short.

(** The example in the documentation of [PermutationSequence], with a fixed
    point and a cycle of four; the sixth element lies past the permutation. *)
Example C32_example :
  Permutation [2; 4; 3; 1; 0] (seq 0 5) /\
  exists q, build_for_gather_permutation [2; 4; 3; 1; 0] = Done q /\
    permute_slice q [10; 11; 12; 13; 14; 15] = Done [12; 14; 13; 11; 10; 15].
Proof.
  split; [|eexists; split; vm_compute; reflexivity].
  apply NoDup_Permutation; [repeat constructor; cbn; lia|apply seq_NoDup|].
  intros x. rewrite in_seq. cbn. lia.
Qed.

(** Every rooted forest has a post-order computed: it lists every node once,
    children before parents and subtrees contiguously, ending in their root. *)
Theorem C33_post_order : forall ps, forest ps ->
  exists post, post_order ps = Done post /\ is_post_order ps post.
Proof. exact post_order_ok. Qed.
Print Assumptions C33_post_order.

(** The computed levels are the numbers of proper ancestors, and the reported
    maximum is the largest of them (zero for the empty forest). *)
Theorem C34_levels : forall ps, forest ps ->
  exists levels m, node_depth_levels ps = Done (levels, m) /\ length levels = length ps /\
    (forall v l, nth_error levels v = Some l -> depth ps v l) /\
    (forall v d, depth ps v d -> d <= m) /\
    (ps = [] /\ m = 0 \/ exists v, depth ps v m).
Proof.
  intros ps Hf. destruct (levels_ok ps Hf) as (levels & m & E & L & D & M1 & M2).
  exists levels, m. split; [exact E|]. split; [exact L|]. split; [exact D|]. split.
  - intros v d Hd. destruct (nth_error_ex levels v) as [l Hl]; [rewrite L; eapply depth_lt; exact Hd|].
    rewrite (depth_fun _ _ _ Hd _ (D _ _ Hl)). eapply M1; exact Hl.
  - destruct M2 as [->|[v Hv]]; [|right; exists v; apply D; exact Hv].
    destruct ps as [|o ps]; [left; auto|]. right. destruct levels as [|l levels]; [discriminate|].
    exists 0. assert (l = 0) by (specialize (M1 0 l eq_refl); lia). subst l. apply D. reflexivity.
Qed.
Print Assumptions C34_levels.

Definition example_tree : list (option nat) :=
  [Some 1; Some 5; Some 5; Some 4; Some 5; Some 6; None].

(** The tree in the documentation of both functions is a forest. *)
Example C33_example :
  forest example_tree /\ post_order example_tree = Done [3; 4; 2; 0; 1; 5; 6] /\
  node_depth_levels example_tree = Done ([3; 2; 2; 3; 2; 1; 0], 3).
Proof.
  split; [|split; vm_compute; reflexivity]. intros v Hv. exists 6. split; [|reflexivity].
  do 7 (destruct v as [|v]; [repeat (apply below_refl || (eapply below_step; [reflexivity|]))|]).
  cbn in Hv. lia.
Qed.
