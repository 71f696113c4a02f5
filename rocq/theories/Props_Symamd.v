(** Properties C44 to C46: the ordering of symmetric matrices, and what is reported
    about unsorted columns. *)
From Coq Require Import List Arith ZArith Lia Bool Permutation.
From Verif Require Import Outcome Lib ModelSparse ModelColamd ModelSymamd Spec_Colamd Spec_Symamd Proofs_Zlist Proofs_Order Proofs_Colamd Proofs_Symamd Proofs_Validate Props_Colamd.
Import ListNotations.
Local Open Scope Z_scope.

(** There are fewer than 2^28 indices, so that the numbers of the code are
    in the range of [i32]. *)
Definition few (n : Z) (pointers : list Z) : Prop := fits n /\ element pointers n < 2 ^ 28.

Lemma pairs_sizes n rows pointers : columns_in_range n rows pointers -> few n pointers ->
  exists len, colamd_recommended (2 * zlen (lower_pairs rows pointers n)) (zlen (lower_pairs rows pointers n)) n = Some len /\
    2 * zlen (lower_pairs rows pointers n) <= len /\
    required_length (2 * zlen (lower_pairs rows pointers n)) (zlen (lower_pairs rows pointers n)) n <= len /\
    calculate_sizes n (zlen (lower_pairs rows pointers n)) (2 * zlen (lower_pairs rows pointers n)) =
      Some (6 * (n + 1), 4 * (zlen (lower_pairs rows pointers n) + 1), required_length (2 * zlen (lower_pairs rows pointers n)) (zlen (lower_pairs rows pointers n)) n).
Proof.
  intros CI (F1 & F2). pose proof (lower_pairs_length _ _ _ CI) as Le. pose proof (ci_size _ _ _ CI) as N0. set (k := zlen (lower_pairs rows pointers n)) in *.
  assert (0 <= k) by apply zlen_nonneg. unfold fits in *.
  destruct (sizes_fit (2 * k) k n) as (len & E & L & S); unfold fits; try lia. exists len. repeat split; auto. unfold required_length in L. lia.
Qed.
Lemma symamd_core_result n rows pointers perm o : columns_in_range n rows pointers -> few n pointers -> zlen perm = n + 1 ->
  exists p stats, symamd_core n rows pointers perm o = Done (inr (p, stats)) /\ length p = length perm /\ st_jumble stats = None /\ column_order n (firstn (Z.to_nat n) p).
Proof.
  intros CI F Lp. destruct (pairs_sizes n rows pointers CI F) as (len & Rec & L2 & Lr & Sz). pose proof (ci_size _ _ _ CI) as N0.
  destruct (symamd_core_pairs n rows pointers perm o len CI Lp Rec L2) as (m & count & _ & Lm & SC & ->). unfold order_pairs.
  set (L := lower_pairs rows pointers n) in *.
  assert (Tot : element (Proofs_Symamd.pointers n L) n = 2 * zlen L).
  { rewrite element_znth by lia. rewrite pointers_at by lia. apply start_total. intros i j. apply (lower_pairs_good n rows pointers CI). }
  rewrite <- Tot in Sz at 1.
  match goal with |- context [colamd_core _ _ _ _ ?o'] => destruct (colamd_core_ok (zlen L) n m (Proofs_Symamd.pointers n L) o' _ _ _ SC Sz) as (p & st & E & X1 & X2 & X3) end;
    [unfold required_length; lia|lia|pose proof (zlen_nonneg L); lia|unfold zlen in Lm; lia|].
  rewrite E. cbn [obind]. do 2 eexists. split; [reflexivity|]. split; [|split; [exact X2|exact X3]].
  pose proof (pointers_length n N0 L) as Y. unfold zlen in *. lia.
Qed.

(* ----- C44 ----- *)

(** Every symmetric matrix is ordered, whatever the options and whatever the order
    of the indices in its columns: no access is out of bounds, the loops end,
    and the first [n] words of the result hold each column exactly once. *)
Theorem C44_symmetric_ordering : forall n rows pointers permutation options,
  columns_in_range n rows pointers -> few n pointers -> length permutation = length pointers ->
  exists p stats, symamd n rows pointers permutation options = Done (inr (p, stats)) /\
    length p = length permutation /\ column_order n (firstn (Z.to_nat n) p).
Proof.
  intros n rows pointers permutation o CI F L. pose proof (ci_length _ _ _ CI) as Lp. pose proof (ci_size _ _ _ CI) as N0. unfold symamd. rewrite Lp, Z.eqb_refl.
  destruct (Z.leb_spec 0 (n + 1)); [|lia]. cbn [andb oassert obind]. rewrite L, Nat.eqb_refl. cbn [oassert obind].
  destruct (symamd_core_result n rows pointers permutation (match o with Some o => o | None => colamd_default end) CI F) as (p & st & E & X1 & _ & X2); [unfold zlen; lia|].
  rewrite E. cbn [obind]. exists p, st. split; [reflexivity|]. split; [lia|exact X2].
Qed.
Print Assumptions C44_symmetric_ordering.

(* ----- C45 ----- *)

Lemma lower_pairs_ext n rows ptrs rows' ptrs' : (forall c, 0 <= c < n -> lower_part rows ptrs c = lower_part rows' ptrs' c) ->
  lower_pairs rows ptrs n = lower_pairs rows' ptrs' n.
Proof.
  intros H. unfold lower_pairs. assert (G : forall l, (forall c, In c l -> 0 <= c < n) -> flat_map (column_pairs rows ptrs) l = flat_map (column_pairs rows' ptrs') l).
  { induction l as [|c l IH]; intros Hl; [reflexivity|]. cbn [flat_map]. rewrite IH by (intros; apply Hl; right; auto). f_equal. unfold column_pairs. rewrite H by (apply Hl; left; auto). reflexivity. }
  apply G. intros c. apply In_zrange.
Qed.

(** Only what is below the diagonal counts: two matrices whose columns agree below
    the diagonal, except for repetitions, are ordered alike, with the same
    statistics, whatever the permutation held before. *)
Theorem C45_lower_part : forall n rows pointers rows' pointers' permutation permutation' options,
  columns_in_range n rows pointers -> columns_in_range n rows' pointers' -> few n pointers -> few n pointers' ->
  length permutation = length pointers -> length permutation' = length pointers' ->
  (forall c, 0 <= c < n -> lower_part rows pointers c = lower_part rows' pointers' c) ->
  symamd n rows pointers permutation options = symamd n rows' pointers' permutation' options.
Proof.
  intros n rows ptrs rows' ptrs' perm perm' o CI CI' F F' L L' H. pose proof (lower_pairs_ext _ _ _ _ _ H) as E.
  pose proof (ci_length _ _ _ CI) as Lp. pose proof (ci_length _ _ _ CI') as Lp'. pose proof (ci_size _ _ _ CI) as N0.
  destruct (pairs_sizes n rows ptrs CI F) as (len & Rec & L2 & _). destruct (pairs_sizes n rows' ptrs' CI' F') as (len' & Rec' & L2' & _).
  unfold symamd. rewrite Lp, Lp', Z.eqb_refl. destruct (Z.leb_spec 0 (n + 1)); [|lia]. cbn [andb oassert obind]. rewrite L, L', !Nat.eqb_refl. cbn [oassert obind].
  set (opts := match o with Some o => o | None => colamd_default end).
  destruct (symamd_core_pairs n rows ptrs perm opts len CI) as (m & count & R & _ & _ & ->); auto; [unfold zlen; lia|].
  destruct (symamd_core_pairs n rows' ptrs' perm' opts len' CI') as (m' & count' & R' & _ & _ & ->); auto; [unfold zlen; lia|].
  rewrite <- E in *. rewrite Rec in Rec'. injection Rec' as <-. rewrite R in R'. injection R' as <- <-. reflexivity.
Qed.
Print Assumptions C45_lower_part.

(** The matrix of the documentation, whole, and below the diagonal alone with an
    index repeated and another above the diagonal *)
Definition whole_rows : list Z := [0; 1; 0; 2; 3; 1; 1; 4; 3].
Definition whole_pointers : list Z := [0; 2; 5; 6; 8; 9].
Definition part_rows : list Z := [1; 2; 0; 3; 2; 4; 3].
Definition part_pointers : list Z := [0; 1; 5; 5; 7; 7].
Lemma in_range_check n rows pointers : 0 <= n -> Z.of_nat (length pointers) = n + 1 -> element pointers 0 = 0 ->
  element pointers n <= Z.of_nat (length rows) ->
  forallb (fun c => (element pointers c <=? element pointers (c + 1)) &&
    forallb (fun i => (0 <=? element rows i) && (element rows i <? n)) (zrange (element pointers c) (element pointers (c + 1)))) (zrange 0 n) = true ->
  columns_in_range n rows pointers.
Proof.
  intros H0 L P0 La H. rewrite forallb_forall in H. constructor; auto.
  - intros c Hc. specialize (H c (proj2 (In_zrange _ _ _) Hc)). apply andb_true_iff in H. destruct H as (H & _). lia.
  - intros c i Hc Hi. specialize (H c (proj2 (In_zrange _ _ _) Hc)). apply andb_true_iff in H. destruct H as (_ & H). rewrite forallb_forall in H.
    specialize (H i (proj2 (In_zrange _ _ _) Hi)). lia.
Qed.
Lemma whole_in_range : columns_in_range 5 whole_rows whole_pointers.
Proof. apply in_range_check; vm_compute; (reflexivity || discriminate). Qed.
Lemma part_in_range : columns_in_range 5 part_rows part_pointers.
Proof. apply in_range_check; vm_compute; (reflexivity || discriminate). Qed.
Example C44_example : columns_in_range 5 part_rows part_pointers /\ few 5 part_pointers /\ ~ increasing_columns 5 part_rows part_pointers /\
  exists stats, symamd 5 part_rows part_pointers [9; 9; 9; 9; 9; 9] None = Done (inr ([0; 2; 1; 3; 4; -1], stats)).
Proof.
  split; [exact part_in_range|]. split; [split; vm_compute; reflexivity|]. split.
  - intros H. specialize (H 1 1 ltac:(lia)). vm_compute in H. specialize (H ltac:(discriminate) eq_refl). discriminate.
  - eexists. vm_compute. reflexivity.
Qed.
Example C45_example : columns_in_range 5 whole_rows whole_pointers /\ columns_in_range 5 part_rows part_pointers /\
  (forall c, 0 <= c < 5 -> lower_part whole_rows whole_pointers c = lower_part part_rows part_pointers c) /\
  entries whole_rows whole_pointers 1 <> entries part_rows part_pointers 1.
Proof.
  split; [exact whole_in_range|]. split; [exact part_in_range|]. split; [|discriminate].
  intros c Hc. assert (c = 0 \/ c = 1 \/ c = 2 \/ c = 3 \/ c = 4) as [-> |[-> |[-> |[-> | -> ]]]] by lia; reflexivity.
Qed.
(** The order of the indices below the diagonal does count. *)
Example C45_order : exists stats stats',
  symamd 4 [1; 2; 3; 3] [0; 1; 3; 4; 4] [0; 0; 0; 0; 0] None = Done (inr ([0; 1; 2; 3; -1], stats)) /\
  symamd 4 [1; 3; 2; 3] [0; 1; 3; 4; 4] [0; 0; 0; 0; 0] None = Done (inr ([0; 1; 3; 2; -1], stats')).
Proof. do 2 eexists. split; vm_compute; reflexivity. Qed.

(* ----- C46 ----- *)

Lemma sizes_form n_col n_row nnz cs rs need : calculate_sizes n_col n_row nnz = Some (cs, rs, need) ->
  cs = 6 * (n_col + 1) /\ rs = 4 * (n_row + 1) /\ need = required_length nnz n_row n_col.
Proof.
  unfold calculate_sizes, required_length. intros H. apply obnd_some in H. destruct H as (c & Hc & H). pose proof (col_words_some _ _ Hc) as Ec.
  apply obnd_some in H. destruct H as (r & Hr & H). pose proof (row_words_some _ _ Hr) as Er.
  apply obnd_some in H. destruct H as (x & Hx & H). apply checked_some in Hx. apply obnd_some in H. destruct H as (y & Hy & H). apply checked_some in Hy.
  apply obnd_some in H. destruct H as (z & Hz & H). apply checked_some in Hz. apply obnd_some in H. destruct H as (u & Hu & H). apply checked_some in Hu.
  injection H as <- <- <-. lia.
Qed.
Lemma colamd_success n_row n_col rows pointers o p st : colamd n_row n_col rows pointers o = Done (inr (p, st)) ->
  0 <= n_row /\ 0 <= n_col /\ zlen pointers = n_col + 1 /\ element pointers 0 = 0 /\ 0 <= element pointers n_col /\
  colamd_core n_row n_col rows pointers (match o with Some o => o | None => colamd_default end) = Done (inr (p, st)) /\
  exists cs rs need, calculate_sizes n_col n_row (element pointers n_col) = Some (cs, rs, need) /\ need <= zlen rows.
Proof.
  unfold colamd. destruct (Z.leb_spec 0 (n_col + 1)); [|discriminate]. destruct (Z.eqb_spec (Z.of_nat (length pointers)) (n_col + 1)) as [Lp|]; [|discriminate]. cbn [andb oassert obind].
  set (opts := match o with Some o => o | None => colamd_default end).
  destruct (colamd_core n_row n_col rows pointers opts) as [[e|(p' & st')]| |] eqn:E; cbn [obind]; try discriminate; [destruct e; discriminate|]. intros [= <- <-].
  pose proof E as E0. unfold colamd_core in E. destruct (Z.ltb_spec n_row 0); [discriminate|]. destruct (Z.ltb_spec n_col 0); [discriminate|].
  rewrite (zget_ok 0) in E by (unfold zlen; lia). cbn [obind] in E. rewrite <- element_znth in E by lia. destruct (Z.ltb_spec (element pointers n_col) 0); [discriminate|].
  rewrite (zget_ok 0) in E by (unfold zlen; lia). cbn [obind] in E. rewrite <- element_znth in E by lia. destruct (Z.eqb_spec (element pointers 0) 0) as [P0|]; [|discriminate]. cbn [negb] in E.
  destruct (calculate_sizes n_col n_row (element pointers n_col)) as [((cs & rs) & need)|]; [|discriminate].
  destruct (Z.ltb_spec (Z.of_nat (length rows)) need); [discriminate|]. repeat split; auto; try lia. exists cs, rs, need. split; [reflexivity|unfold zlen; lia].
Qed.

(** Whenever an ordering is returned, it comes with a notice of unsorted columns
    exactly when a column is not strictly increasing. *)
Theorem C46_notice : forall n_row n_col rows pointers options p stats,
  colamd n_row n_col rows pointers options = Done (inr (p, stats)) ->
  (st_jumble stats = None <-> increasing_columns n_col rows pointers).
Proof.
  intros n_row n_col rows pointers o p st E. destruct (colamd_success _ _ _ _ _ _ _ E) as (H1 & H2 & Lp & P0 & Pn & Ec & cs & rs & need & Sz & Ln).
  destruct (sizes_form _ _ _ _ _ _ Sz) as (-> & -> & ->). set (opts := match o with Some o => o | None => colamd_default end) in *.
  destruct (core_cases n_row n_col rows pointers opts _ _ _ H1 H2 Lp P0 Pn Sz) as [(c & _ & X)|[(_ & c & i & _ & X)|(Up & In & _ & J)]];
    try (unfold required_length; lia); try congruence.
  split; [exact (J _ _ Ec)|]. intros Inc.
  destruct (colamd_core_ok n_row n_col rows pointers opts (6 * (n_col + 1)) (4 * (n_row + 1)) (required_length (element pointers n_col) n_row n_col)) as (p' & st' & E' & _ & X & _);
    try (unfold required_length; lia); auto; [|congruence].
  assert (M : forall c c', 0 <= c <= c' -> c' <= n_col -> element pointers c <= element pointers c') by (apply (up_mono n_col pointers Up)).
  constructor; auto.
  - unfold required_length, zlen in *. lia.
  - intros c i Hc Hi. apply In. pose proof (M 0 c ltac:(lia) ltac:(lia)). pose proof (M (c + 1) n_col ltac:(lia) ltac:(lia)). lia.
Qed.
Print Assumptions C46_notice.

(** Not so for symmetric matrices: the statistics are overwritten by those of the
    inner ordering, so that no unsorted column is ever reported. *)
Theorem C46_symmetric_refuted : exists n rows pointers permutation p stats,
  columns_in_range n rows pointers /\ few n pointers /\ length permutation = length pointers /\ ~ increasing_columns n rows pointers /\
  symamd n rows pointers permutation None = Done (inr (p, stats)) /\ st_jumble stats = None.
Proof.
  destruct C44_example as (X1 & X2 & X3 & st & X4). exists 5, part_rows, part_pointers, [9; 9; 9; 9; 9; 9], [0; 2; 1; 3; 4; -1], st.
  repeat (split; [first [assumption|reflexivity]|]). destruct (symamd_core_result 5 part_rows part_pointers [9; 9; 9; 9; 9; 9] colamd_default X1 X2 eq_refl) as (p & st' & E & _ & N & _).
  unfold symamd in X4. change (oassert _) with (Done tt) in X4. cbn [obind] in X4. change (oassert _) with (Done tt) in X4. cbn [obind] in X4.
  rewrite E in X4. cbn [obind] in X4. congruence.
Qed.
Print Assumptions C46_symmetric_refuted.

Example C46_example : (exists p stats, colamd 5 4 sample_rows sample_pointers None = Done (inr (p, stats)) /\ st_jumble stats = None) /\
  exists p stats, colamd 2 4 ([0; 1; 1; 0; 1] ++ repeat 0 56) [0; 1; 2; 4; 5] None = Done (inr (p, stats)) /\ st_jumble stats = Some (2, 0, 1).
Proof. split; do 2 eexists; (split; [vm_compute; reflexivity|reflexivity]). Qed.

(* ----- C47 ----- *)

(** What is wrong with an input: of several faults the first, in this order *)
Inductive malformed (n_row n_col : Z) (rows pointers : list Z) : colamd_error -> Prop :=
| mf_start : element pointers 0 <> 0 -> malformed n_row n_col rows pointers (BadStartPointer (element pointers 0))
| mf_room : element pointers 0 = 0 ->
    Z.of_nat (length rows) < required_length (element pointers n_col) n_row n_col ->
    malformed n_row n_col rows pointers (ATooSmall (required_length (element pointers n_col) n_row n_col) (Z.of_nat (length rows)))
| mf_column c : element pointers 0 = 0 ->
    required_length (element pointers n_col) n_row n_col <= Z.of_nat (length rows) ->
    0 <= c < n_col -> element pointers (c + 1) < element pointers c ->
    (forall c', 0 <= c' < c -> element pointers c' <= element pointers (c' + 1)) ->
    malformed n_row n_col rows pointers (ColumnWithNegativeEntries c (element pointers (c + 1) - element pointers c))
| mf_row c i : element pointers 0 = 0 ->
    required_length (element pointers n_col) n_row n_col <= Z.of_nat (length rows) ->
    (forall c', 0 <= c' < n_col -> element pointers c' <= element pointers (c' + 1)) ->
    0 <= c < n_col -> element pointers c <= i < element pointers (c + 1) -> ~ 0 <= element rows i < n_row ->
    (forall i', 0 <= i' < i -> 0 <= element rows i' < n_row) ->
    malformed n_row n_col rows pointers (RowIndexOutOfBounds c (element rows i) n_row).

Lemma malformed_unique n_row n_col rows pointers e e' : 0 <= n_col -> malformed n_row n_col rows pointers e -> malformed n_row n_col rows pointers e' -> e = e'.
Proof.
  intros Hn H H'. destruct H, H'; try lia; try reflexivity.
  - assert (c = c0) as <- by (destruct (Z.lt_trichotomy c c0) as [L|[L|L]]; [specialize (H8 c ltac:(lia)); lia|exact L|specialize (H3 c0 ltac:(lia)); lia]). reflexivity.
  - specialize (H6 c ltac:(lia)). lia.
  - specialize (H1 c0 ltac:(lia)). lia.
  - assert (Up : all_up n_col pointers) by exact H1. pose proof (up_mono n_col pointers Up) as M.
    assert (0 <= i) by (pose proof (M 0 c ltac:(lia) ltac:(lia)); lia). assert (0 <= i0) by (pose proof (M 0 c0 ltac:(lia) ltac:(lia)); lia).
    assert (i = i0) as <- by (destruct (Z.lt_trichotomy i i0) as [L|[L|L]]; [specialize (H12 i ltac:(lia)); tauto|exact L|specialize (H5 i0 ltac:(lia)); tauto]).
    assert (c = c0) as <-; [|reflexivity]. destruct (Z.lt_trichotomy c c0) as [L|[L|L]]; [pose proof (M (c + 1) c0 ltac:(lia) ltac:(lia)); lia|exact L|pose proof (M (c0 + 1) c ltac:(lia) ltac:(lia)); lia].
Qed.

(** An input is refused with the first of its faults, and an input without a fault is
    not refused. *)
Theorem C47_refused : forall n_row n_col rows pointers options,
  0 <= n_row -> 0 <= n_col -> Z.of_nat (length pointers) = n_col + 1 -> 0 <= element pointers n_col ->
  fits n_row -> fits n_col -> fits (element pointers n_col) ->
  forall e, colamd n_row n_col rows pointers options = Done (inl e) <-> malformed n_row n_col rows pointers e.
Proof.
  intros n_row n_col rows pointers o H1 H2 Lp Pn F1 F2 F3 e.
  assert (Cases : (exists e, malformed n_row n_col rows pointers e /\ colamd n_row n_col rows pointers o = Done (inl e)) \/
    ((forall e, ~ malformed n_row n_col rows pointers e) /\ forall e, colamd n_row n_col rows pointers o <> Done (inl e))).
  { destruct (sizes_fit (element pointers n_col) n_row n_col) as (_ & _ & _ & Sz); auto.
    destruct (Z.eq_dec (element pointers 0) 0) as [P0|P0].
    - destruct (Z.lt_ge_cases (Z.of_nat (length rows)) (required_length (element pointers n_col) n_row n_col)) as [L|L].
      + left. eexists. split; [apply mf_room; assumption|]. now apply C42_refused.
      + unfold colamd. rewrite Lp, Z.eqb_refl. destruct (Z.leb_spec 0 (n_col + 1)); [|lia]. cbn [andb oassert obind]. set (opts := match o with Some o => o | None => colamd_default end).
        destruct (core_cases n_row n_col rows pointers opts _ _ _ H1 H2 Lp P0 Pn Sz) as [(c & (F & G & K) & X)|[(Up & c & i & (F & G & K & K2) & X)|(Up & In & NE & _)]];
          try (unfold required_length; lia); [exact L|left; rewrite X; cbn [obind]; eexists; split; [eapply mf_column; eauto|reflexivity]|left; rewrite X; cbn [obind]; eexists; split; [eapply mf_row; eauto|reflexivity]|].
        right. split.
        * intros e' M. destruct M; try lia.
          -- specialize (Up c ltac:(lia)). lia.
          -- match goal with N : ~ (_ <= element rows i < _) |- _ => apply N end. apply In. pose proof (up_mono n_col pointers Up 0 c ltac:(lia) ltac:(lia)). pose proof (up_mono n_col pointers Up (c + 1) n_col ltac:(lia) ltac:(lia)). lia.
        * intros e' X. destruct (colamd_core n_row n_col rows pointers opts) as [[e2|(p & st)]| |] eqn:E; cbn [obind] in X; try discriminate. apply (NE e2 eq_refl).
    - left. eexists. split; [apply mf_start; exact P0|]. unfold colamd. rewrite Lp, Z.eqb_refl. destruct (Z.leb_spec 0 (n_col + 1)); [|lia]. cbn [andb oassert obind].
      unfold colamd_core. destruct (Z.ltb_spec n_row 0), (Z.ltb_spec n_col 0); try lia. rewrite (zget_ok 0) by (unfold zlen; lia). cbn [obind]. rewrite <- element_znth by lia.
      destruct (Z.ltb_spec (element pointers n_col) 0); [lia|]. rewrite (zget_ok 0) by (unfold zlen; lia). cbn [obind]. rewrite <- element_znth by lia.
      destruct (Z.eqb_spec (element pointers 0) 0); [lia|]. reflexivity. }
  destruct Cases as [(e' & M & E)|(M & E)]; split; intros X.
  - rewrite E in X. injection X as <-. exact M.
  - rewrite E. do 2 f_equal. now apply (malformed_unique n_row n_col rows pointers).
  - destruct (E e X).
  - destruct (M e X).
Qed.
Print Assumptions C47_refused.

(** A negative number of rows and a negative last pointer are no errors, but crash. *)
Theorem C47_negative_refuted : forall n_row n_col rows pointers options,
  0 <= n_col -> Z.of_nat (length pointers) = n_col + 1 -> n_row < 0 \/ element pointers n_col < 0 ->
  colamd n_row n_col rows pointers options = Panic.
Proof.
  intros n_row n_col rows pointers o H2 Lp H. unfold colamd. rewrite Lp, Z.eqb_refl. destruct (Z.leb_spec 0 (n_col + 1)); [|lia]. cbn [andb oassert obind].
  unfold colamd_core. destruct (Z.ltb_spec n_row 0); [reflexivity|]. destruct (Z.ltb_spec n_col 0); [lia|]. rewrite (zget_ok 0) by (unfold zlen; lia). cbn [obind]. rewrite <- element_znth by lia.
  destruct (Z.ltb_spec (element pointers n_col) 0); [reflexivity|lia].
Qed.
Print Assumptions C47_negative_refuted.

(** For symmetric matrices a pointer too large is looked up before the next
    one, which is smaller, is checked. *)
Theorem C47_symmetric_refuted : exists n rows pointers permutation,
  0 <= n /\ Z.of_nat (length pointers) = n + 1 /\ element pointers 0 = 0 /\ 0 <= element pointers n <= Z.of_nat (length rows) /\
  length permutation = length pointers /\ element pointers 2 < element pointers 1 /\
  symamd n rows pointers permutation None = Panic.
Proof.
  exists 2, [0; 1], [0; 3; 2], [0; 0; 0]. repeat (split; [vm_compute; (reflexivity || discriminate || (split; discriminate))|]). vm_compute. reflexivity.
Qed.
Print Assumptions C47_symmetric_refuted.

Example C47_example : malformed 5 4 sample_rows [0; 3; 5; 4; 11] (ColumnWithNegativeEntries 2 (-1)) /\
  malformed 3 4 sample_rows sample_pointers (RowIndexOutOfBounds 0 4 3) /\
  malformed 5 4 [0; 1] [0; 0; 0; 0; 2] (ATooSmall 62 2) /\
  malformed 5 4 sample_rows [1; 1; 1; 1; 1] (BadStartPointer 1).
Proof.
  split; [apply (mf_column 5 4 sample_rows [0; 3; 5; 4; 11] 2)|split; [apply (mf_row 3 4 sample_rows sample_pointers 0 2)|split; [apply (mf_room 5 4 [0; 1] [0; 0; 0; 0; 2])|apply (mf_start 5 4 sample_rows [1; 1; 1; 1; 1])]]];
    try (vm_compute; first [reflexivity|discriminate|split; [discriminate|reflexivity]|intros (_ & X); discriminate]).
  - intros c Hc. assert (c = 0 \/ c = 1) as [-> | -> ] by lia; vm_compute; discriminate.
  - intros c Hc. assert (c = 0 \/ c = 1 \/ c = 2 \/ c = 3) as [-> |[-> |[-> | -> ]]] by lia; vm_compute; discriminate.
  - intros i Hi. assert (i = 0 \/ i = 1) as [-> | -> ] by lia; vm_compute; split; (reflexivity || discriminate).
Qed.
