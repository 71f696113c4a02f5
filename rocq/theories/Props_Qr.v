(** Property C37: sparse QR solves least squares, in exact arithmetic.
    Statements use the model, [Spec_Sparse.v], [Spec_Linear.v] and [Spec_Qr.v]
    only. *)
From Coq Require Import List Reals Arith NArith Lia Lra Permutation Classical.
From Verif Require Import Num NumR Outcome Lib ModelSparse ModelColamd Spec_Sparse ModelForest ModelCholesky ModelQr Spec_Linear Spec_Qr
  Proofs_Convert Proofs_Format Proofs_Triangular Proofs_QrSolve Proofs_Symbolic Proofs_QrReturns Proofs_FullRank Props_Sparse Props_Colamd.
Import ListNotations.
Local Open Scope R_scope.

(** For any ordering: let every column of [A] have an entry in a row of its own, and let the
    ordering crate, if it is asked, return an ordering of the columns.  Then
    building the symbolic factorization from the structure of [A], factorizing
    [A] and solving for [b] does not panic; it reports success if and only if the
    columns of [A] are independent, and then the first entries of the result
    minimise the norm of [A x - b]. *)
Lemma least_squares : forall colamd ordering (a : matrix R) A b,
  let m := s_nrows (m_structure a) in
  let n := s_ncols (m_structure a) in
  well_formed_matrix a -> represents 0 a A -> length b = m ->
  structural_full_rank (m_structure a) ->
  (ordering = Colamd -> exists p, colamd (m_structure a) = Done p /\ is_ordering n p) ->
  exists ok x, qr_least_squares colamd ordering a b = Done (ok, x) /\ length x = m /\
    (ok = true <-> independent_columns m n A) /\
    (ok = true -> minimises m n A b (firstn n x)).
Proof.
  intros colamd ordering a A b m n W HA Lb FR Hc.
  destruct (symbolic_build_ok colamd (m_structure a) ordering (wfm_structure _ W) FR Hc) as (sq & rho & Rs & Hs & E & SO).
  destruct (solve_ok (m_structure a) sq rho Rs Hs a A b SO eq_refl W HA Lb) as (ok & x & E' & H).
  exists ok, x. split; [|exact H]. unfold qr_least_squares. rewrite E. cbn [obind]. exact E'.
Qed.
Lemma least_squares_independent : forall colamd ordering (a : matrix R) A b,
  let m := s_nrows (m_structure a) in
  let n := s_ncols (m_structure a) in
  well_formed_matrix a -> represents 0 a A -> length b = m ->
  independent_columns m n A ->
  (ordering = Colamd -> exists p, colamd (m_structure a) = Done p /\ is_ordering n p) ->
  exists x, qr_least_squares colamd ordering a b = Done (true, x) /\ length x = m /\
    minimises m n A b (firstn n x).
Proof.
  intros colamd ordering a A b m n W HA Lb Ind Hc.
  destruct (least_squares colamd ordering a A b W HA Lb (independent_full_rank a A HA Ind) Hc)
    as (ok & x & E & L & H1 & H2).
  assert (ok = true) by (apply H1; exact Ind). subst ok. exists x. auto.
Qed.

(** Fewer than 2^29 rows, columns and entries, for the [i32] arithmetic of the
    column ordering *)
Definition orderable (s : structure) : Prop :=
  (N.of_nat (s_nrows s) < 2 ^ 29)%N /\ (N.of_nat (s_ncols s) < 2 ^ 29)%N /\ (N.of_nat (length (s_row_indices s)) < 2 ^ 29)%N.
Lemma colamd_orders s : well_formed s -> orderable s ->
  exists p, colamd_ordering s = Done p /\ is_ordering (s_ncols s) p.
Proof.
  intros W (H1 & H2 & H3). change (2 ^ 29)%N with 536870912%N in *.
  apply C42_factorisation; unfold fits; [exact W|lia|lia|lia].
Qed.

(** Let every column of [A] have an entry in a row of its own.  Then building the
    symbolic factorization from the structure of [A], with the columns as given or
    as ordered by [colamd], factorizing [A] and solving for [b] does not panic; it
    reports success if and only if the columns of [A] are independent, and then
    the first entries of the result minimise the norm of [A x - b]. *)
Theorem C37_least_squares_partial : forall ordering (a : matrix R) A b,
  let m := s_nrows (m_structure a) in
  let n := s_ncols (m_structure a) in
  well_formed_matrix a -> represents 0 a A -> length b = m ->
  structural_full_rank (m_structure a) ->
  (ordering = Colamd -> orderable (m_structure a)) ->
  exists ok x, qr_least_squares colamd_ordering ordering a b = Done (ok, x) /\ length x = m /\
    (ok = true <-> independent_columns m n A) /\
    (ok = true -> minimises m n A b (firstn n x)).
Proof.
  intros ordering a A b m n W HA Lb FR Hc. apply least_squares; auto.
  intros E. apply colamd_orders; [apply W|auto].
Qed.
Print Assumptions C37_least_squares_partial.

(** For every matrix with independent columns it succeeds, with the minimiser
    (there is one only). *)
Theorem C37_independent : forall ordering (a : matrix R) A b,
  let m := s_nrows (m_structure a) in
  let n := s_ncols (m_structure a) in
  well_formed_matrix a -> represents 0 a A -> length b = m ->
  independent_columns m n A ->
  (ordering = Colamd -> orderable (m_structure a)) ->
  exists x, qr_least_squares colamd_ordering ordering a b = Done (true, x) /\ length x = m /\
    minimises m n A b (firstn n x).
Proof.
  intros ordering a A b m n W HA Lb Ind Hc. apply least_squares_independent; auto.
  intros E. apply colamd_orders; [apply W|auto].
Qed.
Print Assumptions C37_independent.

(** For every matrix, whatever its rank, and both orderings: whenever building,
    factorizing and solving returns, it reports success if and only if the
    columns are independent, and then the first entries of the result minimise
    the norm of [A x - b].  (So it never claims success for a matrix that does
    not determine the minimiser.) *)
Theorem C37_whenever_it_returns : forall ordering (a : matrix R) A b ok x,
  let m := s_nrows (m_structure a) in
  let n := s_ncols (m_structure a) in
  well_formed_matrix a -> represents 0 a A ->
  (ordering = Colamd -> orderable (m_structure a)) ->
  qr_least_squares colamd_ordering ordering a b = Done (ok, x) ->
  length x = m /\ (ok = true <-> independent_columns m n A) /\
  (ok = true -> minimises m n A b (firstn n x)).
Proof.
  intros ordering a A b ok x m n W HA Hc E.
  assert (Hc' : ordering = Colamd -> exists p, colamd_ordering (m_structure a) = Done p /\ is_ordering n p)
    by (intros Eo; apply colamd_orders; [apply W|auto]).
  destruct (returns_symbolic colamd_ordering ordering a b (ok, x) (wfm_structure _ W) Hc' E) as (sq & rho & Rs & Hs & Es & SO).
  pose proof E as E'. unfold qr_least_squares in E'. rewrite Es in E'. cbn [obind] in E'.
  assert (Lb : length b = m).
  { pose proof E' as E2. apply obind_done in E2. destruct E2 as (q & _ & E2).
    rewrite (solve_length sq q b _ E2), (so_h _ _ _ _ _ SO). reflexivity. }
  destruct (solve_ok (m_structure a) sq rho Rs Hs a A b SO eq_refl W HA Lb) as (ok' & x' & E2 & H).
  rewrite E2 in E'. injection E' as <- <-. exact H.
Qed.
Print Assumptions C37_whenever_it_returns.

(** It does return for some matrices two of whose columns must share a row. *)
Definition sharing : matrix R := Matrix (Structure 3 3 [0; 1; 2; 2; 2] [0; 3; 4; 5])%nat [1; 2; 3; 4; 5].

Example C37_returns_example : forall b, length b = 3%nat ->
  well_formed_matrix sharing /\ ~ structural_full_rank (m_structure sharing) /\
  exists ok x, qr_least_squares colamd_ordering Natural sharing b = Done (ok, x).
Proof.
  intros b Lb.
  assert (W : well_formed_matrix sharing).
  { constructor; [|reflexivity]. apply (try_from_data_ok 3 3 [0; 1; 2; 2; 2] [0; 3; 4; 5])%nat. vm_compute. reflexivity. }
  split; [exact W|]. split.
  - intros (rows & L & N & H). cbn in L. destruct rows as [|r0 [|r1 [|r2 [|]]]]; try discriminate L.
    assert (R : forall c r, (c = 1 \/ c = 2)%nat -> structural (m_structure sharing) r c -> r = 2%nat).
    { intros c r Hc Hs. assert (c < s_ncols (m_structure sharing))%nat by (cbn; lia).
      destruct (Proofs_Elimination.index_column_ok _ c (wfm_structure _ W) H0) as (rs & E & Hr). apply Hr in Hs.
      destruct Hc as [-> | ->]; vm_compute in E; injection E as <-; cbn in Hs; lia. }
    assert (r1 = 2%nat) by (apply (R 1%nat); [auto|apply H; reflexivity]).
    assert (r2 = 2%nat) by (apply (R 2%nat); [auto|apply H; reflexivity]).
    subst. inversion N as [|? ? _ N1]. inversion N1 as [|? ? N2 _]. apply N2. left; reflexivity.
  - remember (symbolic_build colamd_ordering (m_structure sharing) Natural) as o eqn:Eo.
    pose proof Eo as Ec. vm_compute in Ec. destruct o as [sq| |]; try discriminate Ec.
    destruct (symbolic_build_in_range colamd_ordering (m_structure sharing) Natural sq (wfm_structure _ W)) as (rho & Rs & Hs & SO).
    + discriminate.
    + symmetry; exact Eo.
    + cbn. lia.
    + injection Ec as ->. intros i p Hi. cbn in Hi. destruct i as [|[|[|i]]]; [| | |lia]; vm_compute; intros E; injection E as <-; lia.
    + destruct (represents_ex 0 sharing W) as (A & HA).
      destruct (solve_ok (m_structure sharing) sq rho Rs Hs sharing A b SO eq_refl W HA Lb) as (ok & x & E & _).
      exists ok, x. unfold qr_least_squares. rewrite <- Eo. exact E.
Qed.

(** If some columns must share their rows, it panics: [A] has two rows and two
    columns, the first without entries.  (For every number type, all values, all
    right-hand sides and both orderings of the columns.) *)
Definition deficient {F} (x y : F) : matrix F := Matrix (Structure 2 2 [0; 1] [0; 0; 2])%nat [x; y].

Theorem C37_panic_refuted : forall F (NF : Num F) colamd ordering (x y : F) b,
  (ordering = Colamd -> exists p, colamd (m_structure (deficient x y)) = Done p /\ is_ordering 2 p) ->
  well_formed_matrix (deficient x y) /\
  qr_least_squares colamd ordering (deficient x y) b = Panic.
Proof.
  intros F NF colamd ordering x y b Hc. split.
  { constructor; [|reflexivity]. apply (try_from_data_ok 2 2 [0; 1] [0; 0; 2])%nat. vm_compute. reflexivity. }
  assert (Nat2 : forall p q, is_ordering 2 p -> symbolic_build (fun _ => Done p) (m_structure (deficient x y)) q = symbolic_build colamd (m_structure (deficient x y)) ordering ->
    qr_least_squares colamd ordering (deficient x y) b = Panic).
  { intros p q P E. unfold qr_least_squares. rewrite <- E.
    assert (Hp : p = [0; 1]%nat \/ p = [1; 0]%nat).
    { apply Permutation_sym, (Permutation_length_2_inv (a1 := 0%nat) (a2 := 1%nat)) in P. destruct P as [P|P]; auto. }
    destruct q; [|destruct Hp as [-> | ->]].
    - set (sq := symbolic_build _ _ _). vm_compute in sq. subst sq. cbn [obind].
      unfold factorize. cbn [m_structure deficient s_ncols seq ofold].
      match goal with |- context [factorize_column ?sq ?a ?q 0%nat] => destruct (factorize_column sq a q 0%nat) as [q1| |] eqn:E1 end.
      + reflexivity.
      + reflexivity.
      + exfalso. revert E1. unfold factorize_column. cbn. destruct (neqb nzero nzero); discriminate.
    - set (sq := symbolic_build _ _ _). vm_compute in sq. subst sq. cbn [obind].
      unfold factorize. cbn [m_structure deficient s_ncols seq ofold].
      match goal with |- context [factorize_column ?sq ?a ?q 0%nat] => destruct (factorize_column sq a q 0%nat) as [q1| |] eqn:E1 end.
      + reflexivity.
      + reflexivity.
      + exfalso. revert E1. unfold factorize_column. cbn. destruct (neqb nzero nzero); discriminate.
    - set (sq := symbolic_build _ _ _). vm_compute in sq. subst sq. reflexivity. }
  destruct ordering.
  - apply (Nat2 (seq 0 2) Natural); [apply Permutation_refl|reflexivity].
  - destruct (Hc eq_refl) as (p & Ep & P). apply (Nat2 p Colamd); [exact P|]. unfold symbolic_build. rewrite Ep. reflexivity.
Qed.
Print Assumptions C37_panic_refuted.

(** Three equations for two unknowns: [x = 1], [x + y = 2], [y = 3] *)
Definition three : matrix R := Matrix (Structure 3 2 [0; 1; 1; 2] [0; 2; 4])%nat [1; 1; 1; 1].

Definition full_three (i j : nat) : R :=
  match i, j with 0%nat, 0%nat | 1%nat, 0%nat | 1%nat, 1%nat | 2%nat, 1%nat => 1 | _, _ => 0 end.

Example C37_example : well_formed_matrix three /\ represents 0 three full_three /\
  structural_full_rank (m_structure three) /\ independent_columns 3 2 full_three /\ is_ordering 2 [1; 0]%nat.
Proof.
  assert (W : well_formed_matrix three).
  { constructor; [|reflexivity]. apply (try_from_data_ok 3 2 [0; 1; 1; 2] [0; 2; 4])%nat. vm_compute. reflexivity. }
  assert (E00 : entry three 0 0 1) by (exists 0%nat; split; [exists 0%nat, 2%nat; cbn; repeat split; lia|reflexivity]).
  assert (E10 : entry three 1 0 1) by (exists 1%nat; split; [exists 0%nat, 2%nat; cbn; repeat split; lia|reflexivity]).
  assert (E11 : entry three 1 1 1) by (exists 2%nat; split; [exists 2%nat, 4%nat; cbn; repeat split; lia|reflexivity]).
  assert (E21 : entry three 2 1 1) by (exists 3%nat; split; [exists 2%nat, 4%nat; cbn; repeat split; lia|reflexivity]).
  assert (Out : forall i j, ~ structural (m_structure three) i j \/ In (i, j) [(0, 0); (1, 0); (1, 1); (2, 1)]%nat).
  { intros i j. destruct (classic (structural (m_structure three) i j)) as [H|H]; [right|left; exact H].
    destruct (Proofs_Tree.structural_bound _ _ _ (wfm_structure _ W) H) as [_ Hj]. cbn in Hj.
    destruct (Proofs_Elimination.index_column_ok _ j (wfm_structure _ W) Hj) as (rows & E & Hr). apply Hr in H.
    destruct j as [|[|j]]; [| |lia]; vm_compute in E; injection E as <-; cbn in H |- *;
      (destruct H as [<-|[<-|[]]]; tauto). }
  split; [exact W|]. split; [|split; [|split]].
  - intros i j. unfold element. destruct (Out i j) as [H|H].
    + right. split; [|exact H].
      destruct i as [|[|[|i]]], j as [|[|j]]; try reflexivity; exfalso; apply H.
      * destruct E00 as (k & Hk & _). exists k. exact Hk.
      * destruct E10 as (k & Hk & _). exists k. exact Hk.
      * destruct E11 as (k & Hk & _). exists k. exact Hk.
      * destruct E21 as (k & Hk & _). exists k. exact Hk.
    + left. cbn in H. destruct H as [H|[H|[H|[H|[]]]]]; injection H as <- <-; assumption.
  - exists [0; 2]%nat. split; [reflexivity|]. split; [repeat constructor; cbn; intuition lia|].
    intros [|[|[|j]]] i H; cbn in H; try discriminate; injection H as <-.
    + destruct E00 as (k & Hk & _). exists k. exact Hk.
    + destruct E21 as (k & Hk & _). exists k. exact Hk.
  - intros z L H. pose proof (H 0%nat ltac:(lia)) as H0. pose proof (H 2%nat ltac:(lia)) as H2.
    unfold product, rsum in H0, H2. cbn [seq fold_right full_three] in H0, H2.
    intros [|[|j]] Hj; [lra|lra|lia].
  - apply perm_swap.
Qed.
