(** Properties C39 to C42: the column ordering. *)
From Coq Require Import List Arith ZArith Lia Bool Permutation.
From Verif Require Import Outcome Lib ModelSparse ModelColamd Spec_Sparse Spec_Qr Spec_Colamd Proofs_Zlist Proofs_Order Proofs_Colamd.
Import ListNotations.
Local Open Scope Z_scope.

(* ----- C40 ----- *)

(** What the workspace holds: twice the entries, a word per column, six words per
    column and four words per row (and one of each more) *)
Definition required_length (nnz n_row n_col : Z) : Z := 2 * nnz + n_col + 6 * (n_col + 1) + 4 * (n_row + 1).

Lemma checked_some x y : checked x = Some y -> y = x /\ x <= usize_max.
Proof. unfold checked. destruct (Z.leb_spec x usize_max); [intros [= <-]; auto|discriminate]. Qed.
Lemma checked_ok x : x <= usize_max -> checked x = Some x.
Proof. unfold checked. destruct (Z.leb_spec x usize_max); [reflexivity|lia]. Qed.
Lemma obnd_some {A B} (m : option A) (k : A -> option B) y : obnd m k = Some y -> exists x, m = Some x /\ k x = Some y.
Proof. destruct m; [eauto|discriminate]. Qed.
Lemma to_usize_some x y : to_usize x = Some y -> y = x /\ 0 <= x.
Proof. unfold to_usize. destruct (Z.ltb_spec x 0); [discriminate|intros [= <-]; auto]. Qed.
Lemma col_words_some n x : col_words n = Some x -> x = 6 * (n + 1).
Proof.
  unfold col_words, size_of_col. intros H. apply obnd_some in H. destruct H as (a & H & K). apply checked_some in H. destruct H as (-> & _).
  apply obnd_some in K. destruct K as (b & H & [= <-]). apply checked_some in H. destruct H as (-> & _).
  replace ((n + 1) * 24) with (6 * (n + 1) * 4) by lia. apply Z.div_mul. lia.
Qed.
Lemma row_words_some n x : row_words n = Some x -> x = 4 * (n + 1).
Proof.
  unfold row_words, size_of_row. intros H. apply obnd_some in H. destruct H as (a & H & K). apply checked_some in H. destruct H as (-> & _).
  apply obnd_some in K. destruct K as (b & H & [= <-]). apply checked_some in H. destruct H as (-> & _).
  replace ((n + 1) * 16) with (4 * (n + 1) * 4) by lia. apply Z.div_mul. lia.
Qed.

Lemma recommended_some nnz n_row n_col n : colamd_recommended nnz n_row n_col = Some n ->
  0 <= nnz /\ 0 <= n_row /\ 0 <= n_col /\ n = required_length nnz n_row n_col + nnz / 5 /\ n <= usize_max /\
  (exists c, col_words n_col = Some c) /\ exists r, row_words n_row = Some r.
Proof.
  unfold colamd_recommended, required_length. intros H.
  apply obnd_some in H. destruct H as (a & H & K). apply to_usize_some in H. destruct H as (-> & H1).
  apply obnd_some in K. destruct K as (a & H & K). apply to_usize_some in H. destruct H as (-> & H2).
  apply obnd_some in K. destruct K as (a & H & K). apply to_usize_some in H. destruct H as (-> & H3).
  apply obnd_some in K. destruct K as (c & Hc & K). pose proof (col_words_some _ _ Hc) as Ec.
  apply obnd_some in K. destruct K as (r & Hr & K). pose proof (row_words_some _ _ Hr) as Er.
  apply obnd_some in K. destruct K as (x & Hx & K). apply checked_some in Hx.
  apply obnd_some in K. destruct K as (x1 & Hx1 & K). apply checked_some in Hx1.
  apply obnd_some in K. destruct K as (x2 & Hx2 & K). apply checked_some in Hx2.
  apply obnd_some in K. destruct K as (x3 & Hx3 & K). apply checked_some in Hx3. apply checked_some in K.
  intuition (try lia); eauto.
Qed.
Lemma sizes_some nnz n_row n_col : 0 <= nnz -> 0 <= n_row -> 0 <= n_col -> required_length nnz n_row n_col <= usize_max ->
  (exists c, col_words n_col = Some c) -> (exists r, row_words n_row = Some r) ->
  calculate_sizes n_col n_row nnz = Some (6 * (n_col + 1), 4 * (n_row + 1), required_length nnz n_row n_col).
Proof.
  unfold calculate_sizes, required_length. intros H1 H2 H3 L (c & Hc) (r & Hr).
  rewrite Hc, Hr. rewrite (col_words_some _ _ Hc), (row_words_some _ _ Hr). unfold obnd.
  rewrite checked_ok by lia. rewrite checked_ok by lia. rewrite checked_ok by lia. rewrite checked_ok by lia. f_equal. f_equal. lia.
Qed.

(** A length is reported only when it does not overflow; it is the required length
    and a fifth of the entries more. *)
Theorem C40_recommended : forall nnz n_row n_col n, colamd_recommended nnz n_row n_col = Some n ->
  n = required_length nnz n_row n_col + nnz / 5 /\ required_length nnz n_row n_col <= n <= usize_max /\
  calculate_sizes n_col n_row nnz = Some (6 * (n_col + 1), 4 * (n_row + 1), required_length nnz n_row n_col).
Proof.
  intros nnz n_row n_col n H. apply recommended_some in H. destruct H as (H1 & H2 & H3 & E & L & Hc & Hr).
  assert (0 <= nnz / 5) by (apply Z.div_pos; lia). repeat split; try lia. apply sizes_some; auto. lia.
Qed.
Print Assumptions C40_recommended.

(** It is reported for all sizes that are not negative, and only for those. *)
Theorem C40_reported : forall nnz n_row n_col, nnz < 2 ^ 31 -> n_row < 2 ^ 31 -> n_col < 2 ^ 31 ->
  ((exists n, colamd_recommended nnz n_row n_col = Some n) <-> 0 <= nnz /\ 0 <= n_row /\ 0 <= n_col).
Proof.
  intros nnz n_row n_col L1 L2 L3. split.
  - intros (n & H). apply recommended_some in H. tauto.
  - intros (H1 & H2 & H3). exists (required_length nnz n_row n_col + nnz / 5).
    assert (D : 0 <= nnz / 5 <= nnz) by (split; [apply Z.div_pos|apply Z.div_le_upper_bound]; lia).
    unfold colamd_recommended, col_words, row_words, size_of_col, size_of_row, required_length, to_usize.
    destruct (Z.ltb_spec nnz 0), (Z.ltb_spec n_row 0), (Z.ltb_spec n_col 0); try lia. unfold obnd.
    assert (M : 2 ^ 60 <= usize_max) by (vm_compute; discriminate).
    repeat (rewrite checked_ok by (try (replace ((n_col + 1) * 24) with (6 * (n_col + 1) * 4) by lia; rewrite Z.div_mul by lia);
                              try (replace ((n_row + 1) * 16) with (4 * (n_row + 1) * 4) by lia; rewrite Z.div_mul by lia); lia)).
    replace ((n_col + 1) * 24) with (6 * (n_col + 1) * 4) by lia; rewrite Z.div_mul by lia.
    replace ((n_row + 1) * 16) with (4 * (n_row + 1) * 4) by lia; rewrite Z.div_mul by lia. f_equal. lia.
Qed.
Print Assumptions C40_reported.

Lemma negative_column_error p : forall cols e, negative_column p cols = Done (Some e) -> forall x y, e <> ATooSmall x y.
Proof.
  induction cols as [|c cols IH]; intros e H x y; cbn in H; [discriminate|].
  destruct (zget p c) as [a| |]; try discriminate. cbn in H. destruct (zget p (c + 1)) as [b| |]; try discriminate. cbn in H.
  destruct (b - a <? 0); [|eauto]. injection H as <-. discriminate.
Qed.
Lemma bad_entry_error a p n_row : forall cols e, bad_entry a p n_row cols = Done (Some e) -> forall x y, e <> ATooSmall x y.
Proof.
  induction cols as [|c cols IH]; intros e H x y; cbn in H; [discriminate|].
  destruct (column_slice a p c) as [rows| |]; try discriminate. cbn in H. unfold bad_row in H.
  destruct (find _ rows); [|eauto]. injection H as <-. discriminate.
Qed.

(** A workspace of the recommended length is never refused as too small. *)
Theorem C40_accepted : forall n_row n_col a p o nnz n,
  nth_error p (Z.to_nat n_col) = Some nnz -> colamd_recommended nnz n_row n_col = Some n -> n <= Z.of_nat (length a) ->
  forall needed actual, colamd_core n_row n_col a p o <> Done (inl (ATooSmall needed actual)).
Proof.
  intros n_row n_col a p o nnz n Hp Hn La x y. pose proof (C40_recommended _ _ _ _ Hn) as (E & L & S).
  apply recommended_some in Hn. destruct Hn as (H1 & H2 & H3 & _). unfold colamd_core.
  destruct (Z.ltb_spec n_row 0), (Z.ltb_spec n_col 0); try lia.
  destruct (znth_nth_error 0 p n_col nnz H3 Hp) as (Ep & Lp). rewrite (zget_ok 0) by lia. cbn [obind]. rewrite Ep.
  destruct (Z.ltb_spec nnz 0); [lia|]. destruct (zget p 0) as [p0| |]; cbn [obind]; try discriminate.
  destruct (negb (p0 =? 0)); [discriminate|]. rewrite S.
  destruct (Z.ltb_spec (Z.of_nat (length a)) (required_length nnz n_row n_col)); [lia|].
  match goal with |- obind (init_rows_cols _ _ ?w0) _ <> _ => set (w := w0); clearbody w end.
  destruct (init_rows_cols n_row n_col w) as [[e|(w' & j)]| |] eqn:Ei; cbn [obind]; try discriminate.
  - intros [= ->]. unfold init_rows_cols in Ei.
    destruct (negative_column _ _) as [[e|]| |] eqn:En; cbn [obind] in Ei; try discriminate.
    { injection Ei as ->. exact (negative_column_error _ _ _ En x y eq_refl). }
    destruct (ofold init_col _ _) as [w1| |]; cbn [obind] in Ei; try discriminate.
    destruct (ofold _ _ w1) as [w2| |]; cbn [obind] in Ei; try discriminate.
    destruct (bad_entry _ _ _ _) as [[e|]| |] eqn:Eb; cbn [obind] in Ei; try discriminate.
    { injection Ei as ->. exact (bad_entry_error _ _ _ _ _ Eb x y eq_refl). }
    repeat match type of Ei with
    | obind ?m _ = _ => destruct m as [?| |]; cbn [obind] in Ei; try discriminate
    | (let '(_, _) := ?m in _) = _ => destruct m
    | (if ?b then _ else _) = _ => destruct b
    | Done _ = Done _ => discriminate Ei
    end.
  - destruct (init_scoring _ _ _ _) as [(((w1 & nr) & nc) & md)| |]; cbn [obind]; try discriminate.
    destruct (find_ordering _ _ _ _ _ _ _ _) as [(w2 & g)| |]; cbn [obind]; try discriminate.
    destruct (order_children _ _ _) as [(c & p')| |]; cbn [obind]; discriminate.
Qed.
Print Assumptions C40_accepted.

Example C40_example : colamd_recommended 11 5 4 = Some 82 /\ required_length 11 5 4 = 80 /\ colamd_recommended (-1) 5 4 = None.
Proof. repeat split; vm_compute; reflexivity. Qed.

(* ----- C39 ----- *)

(** The row indices of a column *)
Definition column_rows (rows pointers : list Z) (c : Z) : list Z :=
  firstn (Z.to_nat (znth 0 pointers (c + 1) - znth 0 pointers c)) (skipn (Z.to_nat (znth 0 pointers c)) rows).

(** The same matrix, once with its columns sorted and once with the two entries of
    one column swapped, is ordered in two ways: the jumbled columns are not
    normalised. *)
Theorem C39_refuted : exists nrows ncols sorted jumbled pointers order order' stats stats',
  (forall c, 0 <= c < ncols -> Permutation (column_rows sorted pointers c) (column_rows jumbled pointers c)) /\
  colamd nrows ncols sorted pointers None = Done (inr (order, stats)) /\
  colamd nrows ncols jumbled pointers None = Done (inr (order', stats')) /\
  order <> order'.
Proof.
  set (n := 56%nat).
  exists 2, 4, ([0; 1; 0; 1; 1] ++ repeat 0 n), ([0; 1; 1; 0; 1] ++ repeat 0 n), [0; 1; 2; 4; 5].
  exists [0; 2; 1; 3; -1], [0; 1; 2; 3; -1].
  do 2 eexists. split; [|split; [vm_compute; reflexivity|split; [vm_compute; reflexivity|discriminate]]].
  intros c Hc. assert (c = 0 \/ c = 1 \/ c = 2 \/ c = 3) as [-> |[-> |[-> | -> ]]] by lia; vm_compute;
    try apply Permutation_refl. constructor.
Qed.
Print Assumptions C39_refuted.

(** Worse, on jumbled columns the search can leave its tables: all indices are in
    range and the workspace is as long as required, and yet there is an access out of
    bounds ([Panic]; the code uses raw pointers). *)
Theorem C39_bounds_refuted : exists nrows ncols rows pointers,
  Z.of_nat (length pointers) = ncols + 1 /\ element pointers 0 = 0 /\
  forallb (fun c => element pointers c <=? element pointers (c + 1)) (zrange 0 ncols) = true /\
  forallb (fun i => (0 <=? element rows i) && (element rows i <? nrows)) (zrange 0 (element pointers ncols)) = true /\
  required_length (element pointers ncols) nrows ncols <= Z.of_nat (length rows) /\
  colamd nrows ncols rows pointers None = Panic.
Proof.
  exists 4, 7, ([1; 0; 1; 3; 3; 3; 1; 0; 3; 3; 0; 3; 1] ++ repeat 0 88), [0; 2; 5; 8; 9; 11; 11; 13].
  repeat (split; [vm_compute; (reflexivity || discriminate)|]). vm_compute. reflexivity.
Qed.
Print Assumptions C39_bounds_refuted.

(* ----- C41 ----- *)

(** Ordering the absorbed columns after the columns that absorbed them and writing
    the ordering produces every column exactly once, whatever was absorbed by what. *)
Theorem C41_every_column_once : forall n cols p, absorption_forest n cols -> 0 <= n <= Z.of_nat (length p) ->
  exists cols' p', order_children n cols p = Done (cols', p') /\ length p' = length p /\
    column_order n (firstn (Z.to_nat n) p').
Proof.
  intros n cols p AF H. destruct (order_children_ok n cols p AF H) as (c & p' & E & L & O). exists c, p'.
  split; [exact E|]. split; [|exact O]. unfold zlen in L. lia.
Qed.
Print Assumptions C41_every_column_once.

(** Column 3 was absorbed by 1, which was absorbed by 0; column 2 stands alone and
    goes first. *)
Definition absorbed_columns : list ccol :=
  [CCol (-1) 0 3 1 0 0; CCol (-2) 0 0 (-1) 0 0; CCol (-1) 0 1 0 0 0; CCol (-2) 0 1 (-1) 0 0; CCol 0 0 0 0 0 0].
Lemma absorbed_columns_at i c : 0 <= i < 4 -> column_at absorbed_columns i c ->
  (i = 0 /\ c = CCol (-1) 0 3 1 0 0) \/ (i = 1 /\ c = CCol (-2) 0 0 (-1) 0 0) \/
  (i = 2 /\ c = CCol (-1) 0 1 0 0 0) \/ (i = 3 /\ c = CCol (-2) 0 1 (-1) 0 0).
Proof.
  intros Hi (_ & H). assert (i = 0 \/ i = 1 \/ i = 2 \/ i = 3) as [-> |[-> |[-> | -> ]]] by lia; cbn in H; injection H as <-; auto.
Qed.
Lemma absorbed_columns_roots : absorbed_by absorbed_columns 0 0 /\ absorbed_by absorbed_columns 1 0 /\
  absorbed_by absorbed_columns 2 2 /\ absorbed_by absorbed_columns 3 0.
Proof.
  assert (H0 : absorbed_by absorbed_columns 0 0) by (eapply ab_here; [split; [lia|reflexivity]|reflexivity]).
  assert (H1 : absorbed_by absorbed_columns 1 0)
    by (eapply ab_up; [split; [lia|reflexivity]|discriminate|exact H0]).
  assert (H2 : absorbed_by absorbed_columns 2 2) by (eapply ab_here; [split; [lia|reflexivity]|reflexivity]).
  repeat split; auto. eapply ab_up; [split; [lia|reflexivity]|discriminate|exact H1].
Qed.
Example C41_example : absorption_forest 4 absorbed_columns /\
  exists cols', order_children 4 absorbed_columns [7; 7; 7; 7; 7] = Done (cols', [2; 1; 3; 0; 7]).
Proof.
  destruct absorbed_columns_roots as (R0 & R1 & R2 & R3).
  assert (G : forall r l, group_of 4 absorbed_columns r l -> (r = 0 -> Permutation l [0; 1; 3]) /\ (r = 2 -> Permutation l [2])).
  { intros r l (N & I). split; intros ->; (apply NoDup_Permutation; [exact N|repeat constructor; cbn; lia|]); intros x; rewrite I; split.
    - intros (Hx & A). assert (x <> 2) by (intros ->; pose proof (absorbed_unique _ _ _ _ A R2); lia). cbn. lia.
    - intros [<-|[<-|[<-|[]]]]; split; auto; lia.
    - intros (Hx & A). destruct (Z.eq_dec x 2) as [->|Nx]; [cbn; auto|].
      assert (B : absorbed_by absorbed_columns x 0) by (assert (x = 0 \/ x = 1 \/ x = 3) as [-> |[-> | -> ]] by lia; auto).
      pose proof (absorbed_unique _ _ _ _ A B). lia.
    - intros [<-|[]]. split; auto. lia. }
  assert (K : forall r l c, 0 <= r < 4 -> column_at absorbed_columns r c -> principal c -> group_of 4 absorbed_columns r l ->
    (r = 0 /\ length l = 3%nat /\ cl_shared2 c = 1) \/ (r = 2 /\ length l = 1%nat /\ cl_shared2 c = 0)).
  { intros r l c Hr Hc Hp Hl. destruct (G r l Hl) as (G0 & G2).
    destruct (absorbed_columns_at r c Hr Hc) as [(-> & ->)|[(-> & ->)|[(-> & ->)|(-> & ->)]]]; try discriminate.
    - left. pose proof (Permutation_length (G0 eq_refl)). auto.
    - right. pose proof (Permutation_length (G2 eq_refl)). auto. }
  split.
  - constructor.
    + cbn. lia.
    + intros i Hi. assert (i = 0 \/ i = 1 \/ i = 2 \/ i = 3) as [-> |[-> |[-> | -> ]]] by lia;
        [exists 0|exists 0|exists 2|exists 0]; split; auto; lia.
    + intros i c Hi Hc Hn. destruct (absorbed_columns_at i c Hi Hc) as [(-> & ->)|[(-> & ->)|[(-> & ->)|(-> & ->)]]]; auto;
        destruct Hn; reflexivity.
    + intros r c l Hr Hc Hp Hl. destruct (K r l c Hr Hc Hp Hl) as [(_ & -> & ->)|(_ & -> & ->)]; lia.
    + intros r c l r' c' l' Hr Hr' N Hc Hp Hl Hc' Hp' Hl'.
      destruct (K r l c Hr Hc Hp Hl) as [(-> & -> & ->)|(-> & -> & ->)],
        (K r' l' c' Hr' Hc' Hp' Hl') as [(-> & -> & ->)|(-> & -> & ->)]; lia.
  - eexists. vm_compute. reflexivity.
Qed.

(* ----- C42 ----- *)

(** The [i32] arithmetic of the code, which the model does on integers, cannot
    overflow on these sizes. *)
Definition fits (x : Z) : Prop := x < 2 ^ 29.

Lemma sizes_fit nnz n_row n_col : 0 <= nnz -> 0 <= n_row -> 0 <= n_col -> fits nnz -> fits n_row -> fits n_col ->
  exists n, colamd_recommended nnz n_row n_col = Some n /\ required_length nnz n_row n_col <= n /\
    calculate_sizes n_col n_row nnz = Some (6 * (n_col + 1), 4 * (n_row + 1), required_length nnz n_row n_col).
Proof.
  unfold fits. intros H1 H2 H3 F1 F2 F3. destruct (proj2 (C40_reported nnz n_row n_col ltac:(lia) ltac:(lia) ltac:(lia)) (conj H1 (conj H2 H3))) as (n & E).
  exists n. destruct (C40_recommended _ _ _ _ E) as (_ & X & Y). split; [exact E|]. split; [lia|exact Y].
Qed.

(** Every matrix whose columns are sorted is ordered, whatever the options: no
    access is out of bounds, the loops end, and the first [n_col] words of the
    result hold each column exactly once. *)
Theorem C42_ordering : forall n_row n_col rows pointers options,
  sorted_columns n_row n_col rows pointers ->
  fits n_row -> fits n_col -> fits (element pointers n_col) ->
  required_length (element pointers n_col) n_row n_col <= Z.of_nat (length rows) ->
  exists p stats, colamd n_row n_col rows pointers options = Done (inr (p, stats)) /\
    length p = length pointers /\ st_jumble stats = None /\ column_order n_col (firstn (Z.to_nat n_col) p).
Proof.
  intros n_row n_col rows pointers o SC F1 F2 F3 L. destruct (sc_sizes _ _ _ _ SC) as (H1 & H2).
  pose proof (sorted_range _ _ _ _ SC n_col ltac:(lia)) as Pn. rewrite (sorted_pt pointers n_col H2) in Pn.
  destruct (sizes_fit (element pointers n_col) n_row n_col) as (_ & _ & _ & Sz); auto; [lia|].
  unfold colamd. rewrite (sc_length _ _ _ _ SC), Z.eqb_refl. destruct (Z.leb_spec 0 (n_col + 1)); [|lia]. cbn [andb oassert obind].
  destruct (colamd_core_ok n_row n_col rows pointers (match o with Some o => o | None => colamd_default end) _ _ _ SC Sz) as (p & st & E & X1 & X2 & X3);
    [unfold required_length; lia|lia|lia|exact L|].
  exists p, st. rewrite E. cbn [obind]. auto.
Qed.
Print Assumptions C42_ordering.

(** A shorter workspace is refused, with the length that is needed. *)
Theorem C42_refused : forall n_row n_col rows pointers options,
  0 <= n_row -> 0 <= n_col -> Z.of_nat (length pointers) = n_col + 1 ->
  element pointers 0 = 0 -> 0 <= element pointers n_col ->
  fits n_row -> fits n_col -> fits (element pointers n_col) ->
  Z.of_nat (length rows) < required_length (element pointers n_col) n_row n_col ->
  colamd n_row n_col rows pointers options =
    Done (inl (ATooSmall (required_length (element pointers n_col) n_row n_col) (Z.of_nat (length rows)))).
Proof.
  intros n_row n_col rows pointers o H1 H2 Lp P0 Pn F1 F2 F3 L.
  destruct (sizes_fit (element pointers n_col) n_row n_col) as (_ & _ & _ & Sz); auto.
  unfold colamd. rewrite Lp, Z.eqb_refl. destruct (Z.leb_spec 0 (n_col + 1)); [|lia]. cbn [andb oassert obind].
  unfold colamd_core. destruct (Z.ltb_spec n_row 0), (Z.ltb_spec n_col 0); try lia.
  rewrite (zget_ok 0) by (unfold zlen; lia). cbn [obind]. rewrite <- element_znth by lia. destruct (Z.ltb_spec (element pointers n_col) 0); [lia|].
  rewrite (zget_ok 0) by (unfold zlen; lia). cbn [obind]. rewrite <- element_znth by lia. rewrite P0. change (negb (0 =? 0)) with false. cbv iota.
  rewrite Sz. destruct (Z.ltb_spec (Z.of_nat (length rows)) (required_length (element pointers n_col) n_row n_col)); [reflexivity|lia].
Qed.
Print Assumptions C42_refused.

Lemma element_of_nat l k x : nth_error l k = Some x -> element (map Z.of_nat l) (Z.of_nat k) = Z.of_nat x.
Proof. intros H. unfold element. rewrite Nat2Z.id. apply nth_error_nth. now apply map_nth_error. Qed.
Lemma element_app l l' i : 0 <= i < Z.of_nat (length l) -> element (l ++ l') i = element l i.
Proof. intros H. unfold element. apply app_nth1. lia. Qed.
Lemma well_formed_sorted s pad : well_formed s ->
  sorted_columns (Z.of_nat (s_nrows s)) (Z.of_nat (s_ncols s)) (map Z.of_nat (s_row_indices s) ++ pad) (map Z.of_nat (s_column_pointers s)) /\
  element (map Z.of_nat (s_column_pointers s)) (Z.of_nat (s_ncols s)) = Z.of_nat (length (s_row_indices s)).
Proof.
  intros W. pose proof (wf_count _ W) as Wc.
  assert (P : forall c, (c <= s_ncols s)%nat -> exists x, nth_error (s_column_pointers s) c = Some x).
  { intros c Hc. destruct (nth_error (s_column_pointers s) c) eqn:E; [eauto|]. apply nth_error_None in E. lia. }
  assert (Col : forall c, (c < s_ncols s)%nat -> exists a b, column s c a b).
  { intros c Hc. destruct (P c ltac:(lia)) as (a & A). destruct (P (S c) ltac:(lia)) as (b & B). exists a, b. split; assumption. }
  assert (El : forall c a b, column s c a b -> element (map Z.of_nat (s_column_pointers s)) (Z.of_nat c) = Z.of_nat a /\ element (map Z.of_nat (s_column_pointers s)) (Z.of_nat c + 1) = Z.of_nat b).
  { intros c a b (A & B). split; [now apply element_of_nat|]. replace (Z.of_nat c + 1) with (Z.of_nat (S c)) by lia. now apply element_of_nat. }
  assert (Last : element (map Z.of_nat (s_column_pointers s)) (Z.of_nat (s_ncols s)) = Z.of_nat (length (s_row_indices s))) by (apply element_of_nat, (wf_end _ W)).
  assert (Up : forall c, 0 <= c < Z.of_nat (s_ncols s) -> element (map Z.of_nat (s_column_pointers s)) c <= element (map Z.of_nat (s_column_pointers s)) (c + 1)).
  { intros c Hc. destruct (Col (Z.to_nat c) ltac:(lia)) as (a & b & C). pose proof (wf_ordered _ W _ _ _ C). destruct (El _ _ _ C) as (E1 & E2). rewrite Z2Nat.id in * by lia. lia. }
  assert (Le : forall c, 0 <= c <= Z.of_nat (s_ncols s) -> element (map Z.of_nat (s_column_pointers s)) c <= Z.of_nat (length (s_row_indices s))).
  { intros c Hc. rewrite <- Last. assert (G : forall k, c + Z.of_nat k <= Z.of_nat (s_ncols s) -> element (map Z.of_nat (s_column_pointers s)) c <= element (map Z.of_nat (s_column_pointers s)) (c + Z.of_nat k)).
    { induction k as [|k IH]; intros L; [rewrite Z.add_0_r; lia|]. specialize (IH ltac:(lia)). pose proof (Up (c + Z.of_nat k) ltac:(lia)). replace (c + Z.of_nat (S k)) with (c + Z.of_nat k + 1) by lia. lia. }
    specialize (G (Z.to_nat (Z.of_nat (s_ncols s) - c))). replace (c + Z.of_nat (Z.to_nat (Z.of_nat (s_ncols s) - c))) with (Z.of_nat (s_ncols s)) in G by lia. apply G. lia. }
  split; [|exact Last]. constructor.
  - lia.
  - rewrite map_length. lia.
  - apply (element_of_nat _ 0%nat _ (wf_start _ W)).
  - exact Up.
  - rewrite Last, app_length, map_length. lia.
  - intros c i Hc Hi. destruct (Col (Z.to_nat c) ltac:(lia)) as (a & b & C). destruct (El _ _ _ C) as (E1 & E2). pose proof (Le (c + 1) ltac:(lia)). rewrite Z2Nat.id in * by lia.
    rewrite element_app by (rewrite map_length; lia). destruct (nth_error (s_row_indices s) (Z.to_nat i)) as [r|] eqn:N; [|apply nth_error_None in N; lia].
    pose proof (wf_bound _ W _ _ N). pose proof (element_of_nat _ _ _ N) as X. rewrite Z2Nat.id in X by lia. lia.
  - intros c i Hc Hi Hi'. destruct (Col (Z.to_nat c) ltac:(lia)) as (a & b & C). destruct (El _ _ _ C) as (E1 & E2). pose proof (Le (c + 1) ltac:(lia)). rewrite Z2Nat.id in * by lia.
    rewrite !element_app by (rewrite map_length; lia).
    destruct (nth_error (s_row_indices s) (Z.to_nat i)) as [r|] eqn:N; [|apply nth_error_None in N; lia].
    destruct (nth_error (s_row_indices s) (S (Z.to_nat i))) as [r'|] eqn:N'; [|apply nth_error_None in N'; lia].
    pose proof (wf_increasing _ W _ _ _ (Z.to_nat i) r r' C ltac:(lia) ltac:(lia) N N').
    pose proof (element_of_nat _ _ _ N) as X. rewrite Z2Nat.id in X by lia. pose proof (element_of_nat _ _ _ N') as X'. replace (Z.of_nat (S (Z.to_nat i))) with (i + 1) in X' by lia. lia.
Qed.
Lemma zrange_seq n : map Z.to_nat (zrange 0 (Z.of_nat n)) = seq 0 n.
Proof.
  induction n as [|n IH]; [reflexivity|]. rewrite seq_S, <- IH. replace (Z.of_nat (S n)) with (Z.of_nat n + 1) by lia. rewrite zrange_snoc by lia. rewrite map_app. cbn [map].
  rewrite Nat2Z.id. reflexivity.
Qed.

(** The call made before a sparse factorisation: any well-formed matrix is given an
    ordering of its columns. *)
Theorem C42_factorisation : forall s, well_formed s ->
  fits (Z.of_nat (s_nrows s)) -> fits (Z.of_nat (s_ncols s)) -> fits (Z.of_nat (length (s_row_indices s))) ->
  exists p, colamd_ordering s = Done p /\ is_ordering (s_ncols s) p.
Proof.
  intros s W F1 F2 F3. unfold colamd_ordering, to_i32.
  repeat match goal with |- context [if ?x <? ?y then Done _ else Panic] => destruct (Z.ltb_spec x y); [cbn [obind]|unfold fits in *; lia] end.
  destruct (sizes_fit (Z.of_nat (length (s_row_indices s))) (Z.of_nat (s_nrows s)) (Z.of_nat (s_ncols s))) as (n & En & Ln & _); auto; try lia. rewrite En. cbn [ounwrap obind].
  assert (Nn : Z.of_nat (length (s_row_indices s)) <= n) by (unfold required_length in Ln; lia).
  rewrite firstn_all2 by (rewrite map_length; lia).
  destruct (well_formed_sorted s (repeat 0 (Z.to_nat n - length (map Z.of_nat (s_row_indices s)))) W) as (SC & El).
  destruct (C42_ordering _ _ _ _ None SC F1 F2) as (p & st & E & _ & _ & CO); [now rewrite El|rewrite El, app_length, repeat_length, map_length; lia|].
  rewrite E. cbn [obind]. eexists. split; [reflexivity|]. unfold is_ordering. rewrite <- zrange_seq, firstn_map. apply Permutation_map. rewrite Nat2Z.id in CO. exact CO.
Qed.
Print Assumptions C42_factorisation.

(** A 5 by 4 matrix, in the smallest workspace *)
Definition sample_rows : list Z := [0; 1; 4; 2; 4; 0; 1; 2; 3; 1; 3] ++ repeat (-1) 69.
Definition sample_pointers : list Z := [0; 3; 5; 9; 11].
Example C42_example : sorted_columns 5 4 sample_rows sample_pointers /\ required_length (element sample_pointers 4) 5 4 = Z.of_nat (length sample_rows) /\
  exists stats, colamd 5 4 sample_rows sample_pointers None = Done (inr ([1; 0; 2; 3; -1], stats)).
Proof.
  split; [|split; [vm_compute; reflexivity|eexists; vm_compute; reflexivity]]. constructor.
  - lia.
  - reflexivity.
  - reflexivity.
  - intros c Hc. assert (c = 0 \/ c = 1 \/ c = 2 \/ c = 3) as [-> |[-> |[-> | -> ]]] by lia; vm_compute; discriminate.
  - vm_compute. discriminate.
  - intros c i Hc Hi.
    assert (X : forallb (fun c => forallb (fun i => (0 <=? element sample_rows i) && (element sample_rows i <? 5)) (zrange (element sample_pointers c) (element sample_pointers (c + 1)))) (zrange 0 4) = true) by (vm_compute; reflexivity).
    rewrite forallb_forall in X. specialize (X c (proj2 (In_zrange _ _ _) Hc)). rewrite forallb_forall in X. specialize (X i (proj2 (In_zrange _ _ _) Hi)). lia.
  - intros c i Hc Hi Hi'.
    assert (X : forallb (fun c => forallb (fun i => element sample_rows i <? element sample_rows (i + 1)) (zrange (element sample_pointers c) (element sample_pointers (c + 1) - 1))) (zrange 0 4) = true) by (vm_compute; reflexivity).
    rewrite forallb_forall in X. specialize (X c (proj2 (In_zrange _ _ _) Hc)). rewrite forallb_forall in X. specialize (X i). rewrite In_zrange in X. specialize (X ltac:(lia)). lia.
Qed.
