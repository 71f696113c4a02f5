(** Solving with a QR factorization minimises the residual *)
From Coq Require Import List Arith Lia Reals Lra Bool Sorted Permutation.
From Verif Require Import Num NumR Outcome Lib ModelSparse ModelForest ModelCholesky ModelQr
  Spec_Sparse Spec_Linear Spec_Qr Proofs_Sparse Proofs_Format Proofs_Linear Proofs_Triangular Proofs_Householder
  Proofs_Elimination Proofs_Columns Proofs_Factorize.
Import ListNotations.
Local Open Scope R_scope.

Lemma rsum_perm f l l' : Permutation l l' -> rsum f l = rsum f l'.
Proof.
  induction 1 as [|x l l' _ IH|x y l|l1 l2 l3 _ IH1 _ IH2]; rewrite ?rsum_cons; lra.
Qed.

(** ** The linear algebra *)
Section LeastSquares.
  Variables m n : nat.
  Variable Q : (nat -> R) -> nat -> R.
  Variable col : nat -> nat -> R.
  Variable U : nat -> nat -> R.
  Variable y0 : nat -> R.
  Hypothesis Hmn : (n <= m)%nat.
  Hypothesis Qlin : forall (z : nat -> R) l i, (i < m)%nat ->
    Q (fun i => rsum (fun j => z j * col j i) l - y0 i) i = rsum (fun j => z j * Q (col j) i) l - Q y0 i.
  Hypothesis Qlin0 : forall (z : nat -> R) l i, (i < m)%nat ->
    Q (fun i => rsum (fun j => z j * col j i) l) i = rsum (fun j => z j * Q (col j) i) l.
  Hypothesis Qort : orthogonal m Q.
  Hypothesis Qcol : forall j i, (j < n)%nat -> (i < m)%nat -> Q (col j) i = U i j.
  Hypothesis Uup : forall i j, (j < i)%nat -> U i j = 0.

  Definition comb (z : nat -> R) (i : nat) : R := rsum (fun j => z j * col j i) (seq 0 n).
  Definition error (z : nat -> R) : R := inner m (fun i => comb z i - y0 i) (fun i => comb z i - y0 i).
  Definition top (z : nat -> R) (i : nat) : R := rsum (fun j => U i j * z j) (seq 0 n).

  Lemma error_split z :
    error z = inner n (fun i => top z i - Q y0 i) (fun i => top z i - Q y0 i)
              + rsum (fun i => Q y0 i * Q y0 i) (seq n (m - n)).
  Proof.
    unfold error. rewrite <- Qort.
    assert (E : forall i, (i < m)%nat -> Q (fun i => comb z i - y0 i) i = top z i - Q y0 i).
    { intros i Hi. unfold comb. rewrite Qlin by exact Hi. f_equal. apply rsum_ext.
      intros j Hj. apply in_seq in Hj. rewrite Qcol by lia. lra. }
    rewrite (inner_ext m _ _ _ _ E E). unfold inner. replace m with (n + (m - n))%nat at 1 by lia.
    rewrite seq_app, rsum_app. f_equal. apply rsum_ext. intros i Hi. apply in_seq in Hi.
    replace (top z i) with 0; [lra|]. symmetry. apply rsum_zero. intros j Hj. apply in_seq in Hj.
    rewrite Uup by lia. lra.
  Qed.

  Lemma error_minimal x z : (forall i, (i < n)%nat -> top x i = Q y0 i) -> error x <= error z.
  Proof.
    intros H. rewrite !error_split. apply Rplus_le_compat_r.
    replace (inner n (fun i => top x i - Q y0 i) (fun i => top x i - Q y0 i)) with 0; [apply inner_pos|].
    symmetry. apply inner_zero_l. intros i Hi. left. rewrite H by exact Hi. lra.
  Qed.

  Lemma inner_null k x : inner k x x = 0 -> forall i, (i < k)%nat -> x i = 0.
  Proof.
    unfold inner. intros H i Hi.
    assert (E : seq 0 k = seq 0 i ++ i :: seq (S i) (k - S i)).
    { replace k with (i + S (k - S i))%nat at 1 by lia. now rewrite seq_app. }
    rewrite E, rsum_app, rsum_cons in H.
    pose proof (rsum_nonneg (fun i => x i * x i) (seq 0 i) (fun i _ => Rle_0_sqr (x i))).
    pose proof (rsum_nonneg (fun i => x i * x i) (seq (S i) (k - S i)) (fun i _ => Rle_0_sqr (x i))).
    pose proof (Rle_0_sqr (x i)) as Hs. unfold Rsqr in Hs. apply Rsqr_0_uniq. unfold Rsqr. lra.
  Qed.

  Lemma top_zero z : (forall i, (i < m)%nat -> comb z i = 0) <-> (forall i, (i < n)%nat -> top z i = 0).
  Proof.
    assert (E : forall i, (i < m)%nat -> Q (comb z) i = top z i).
    { intros i Hi. unfold comb. rewrite Qlin0 by exact Hi. apply rsum_ext.
      intros j Hj. apply in_seq in Hj. rewrite Qcol by lia. lra. }
    assert (Hlow : forall i, (n <= i)%nat -> top z i = 0).
    { intros i Hi. apply rsum_zero. intros j Hj. apply in_seq in Hj. rewrite Uup by lia. lra. }
    assert (En : inner m (comb z) (comb z) = inner m (top z) (top z)).
    { rewrite <- Qort. apply inner_ext; exact E. }
    split; intros H.
    - intros i Hi. apply (inner_null m (top z)); [|lia]. rewrite <- En. apply inner_zero_l. intros; left; auto.
    - apply inner_null. rewrite En. apply inner_zero_l. intros i Hi. left.
      destruct (Nat.lt_ge_cases i n); auto.
  Qed.

  Lemma upper_zero z : (forall j, (j < n)%nat -> U j j <> 0) -> (forall i, (i < n)%nat -> top z i = 0) ->
    forall j, (j < n)%nat -> z j = 0.
  Proof.
    intros Hd Ht. assert (G : forall k j, (j < n)%nat -> (n - j <= k)%nat -> z j = 0).
    { induction k as [|k IH]; intros j Hj Hk; [lia|].
      specialize (Ht j Hj). unfold top in Ht.
      assert (E : seq 0 n = seq 0 j ++ j :: seq (S j) (n - S j)).
      { replace n with (j + S (n - S j))%nat at 1 by lia. now rewrite seq_app. }
      rewrite E, rsum_app, rsum_cons in Ht.
      rewrite (rsum_zero _ (seq 0 j)) in Ht.
      2:{ intros i Hi. apply in_seq in Hi. rewrite Uup by lia. lra. }
      rewrite (rsum_zero _ (seq (S j) (n - S j))) in Ht.
      2:{ intros i Hi. apply in_seq in Hi. rewrite (IH i) by lia. lra. }
      specialize (Hd j Hj). assert (E2 : U j j * z j = 0) by lra.
      apply Rmult_integral in E2. destruct E2; [contradiction|assumption]. }
    intros j Hj. apply (G n); [exact Hj|lia].
  Qed.

  (** A triangular system with a nonzero diagonal has a solution. *)
  Lemma upper_solve k : forall b, (forall j, (j < k)%nat -> U j j <> 0) ->
    exists z : nat -> R, forall i, (i < k)%nat -> rsum (fun j => U i j * z j) (seq 0 k) = b i.
  Proof.
    induction k as [|k IH]; intros b Hd; [exists (fun _ => 0); intros; lia|].
    destruct (IH (fun i => b i - U i k * (b k / U k k))) as (z & Hz); [intros; apply Hd; lia|].
    exists (fun j => if Nat.eqb j k then b k / U k k else z j). intros i Hi.
    rewrite seq_S, rsum_app, rsum_cons, rsum_nil. cbn [Nat.add]. rewrite Nat.eqb_refl.
    rewrite (rsum_ext _ (fun j => U i j * z j)).
    2:{ intros j Hj. apply in_seq in Hj. destruct (Nat.eqb_spec j k); [lia|reflexivity]. }
    destruct (Nat.eq_dec i k) as [->|Hik].
    - rewrite rsum_zero.
      2:{ intros j Hj. apply in_seq in Hj. rewrite Uup by lia. lra. }
      field. apply Hd. lia.
    - rewrite Hz by lia. lra.
  Qed.

  Lemma first_zero k : (exists j, (j < k)%nat /\ U j j = 0) ->
    exists j, (j < k)%nat /\ U j j = 0 /\ forall i, (i < j)%nat -> U i i <> 0.
  Proof.
    induction k as [|k IH]; intros (j & Hj & E); [lia|].
    destruct (Req_dec (U k k) 0) as [Ek|Ek].
    - assert (D : (exists j, (j < k)%nat /\ U j j = 0) \/ forall i, (i < k)%nat -> U i i <> 0).
      { clear. induction k as [|k [(j & Hj & E)|IH]]; [right; intros; lia| |].
        - left. exists j. split; [lia|exact E].
        - destruct (Req_dec (U k k) 0) as [E|E]; [left; exists k; split; [lia|exact E]|].
          right. intros i Hi. destruct (Nat.eq_dec i k) as [->|]; [exact E|apply IH; lia]. }
      destruct D as [D|D].
      + destruct (IH D) as (i & Hi & G). exists i. split; [lia|exact G].
      + exists k. split; [lia|]. split; [exact Ek|exact D].
    - destruct IH as (i & Hi & G).
      + exists j. split; [|exact E]. assert (j <> k) by (intros ->; contradiction). lia.
      + exists i. split; [lia|exact G].
  Qed.

  Lemma upper_dependent : (exists j, (j < n)%nat /\ U j j = 0) ->
    exists z j, (j < n)%nat /\ z j <> 0 /\ forall i, (i < n)%nat -> top z i = 0.
  Proof.
    intros H. destruct (first_zero n H) as (j & Hj & Ej & Hd).
    destruct (upper_solve j (fun i => - U i j) Hd) as (z & Hz).
    exists (fun i => if Nat.ltb i j then z i else if Nat.eqb i j then 1 else 0), j.
    split; [exact Hj|]. split.
    - destruct (Nat.ltb_spec j j); [lia|]. rewrite Nat.eqb_refl. lra.
    - intros i Hi. unfold top.
      assert (E : seq 0 n = seq 0 j ++ j :: seq (S j) (n - S j)).
      { replace n with (j + S (n - S j))%nat at 1 by lia. now rewrite seq_app. }
      rewrite E, rsum_app, rsum_cons. destruct (Nat.ltb_spec j j); [lia|]. rewrite Nat.eqb_refl.
      rewrite (rsum_zero _ (seq (S j) (n - S j))).
      2:{ intros k Hk. apply in_seq in Hk. destruct (Nat.ltb_spec k j); [lia|].
          destruct (Nat.eqb_spec k j); [lia|]. lra. }
      rewrite (rsum_ext _ (fun k => U i k * z k)).
      2:{ intros k Hk. apply in_seq in Hk. destruct (Nat.ltb_spec k j); [reflexivity|lia]. }
      destruct (Nat.lt_ge_cases i j) as [Hij|Hij].
      + rewrite Hz by exact Hij. lra.
      + rewrite rsum_zero.
        2:{ intros k Hk. apply in_seq in Hk. rewrite Uup by lia. lra. }
        destruct (Nat.eq_dec i j) as [->|]; [rewrite Ej|rewrite Uup by lia]; lra.
  Qed.
End LeastSquares.

(** ** Columns of a matrix *)
Lemma column_facts (a : matrix R) (A : nat -> nat -> R) c :
  well_formed_matrix a -> represents 0 a A -> (c < s_ncols (m_structure a))%nat ->
  exists vs rs, matrix_column a c = Done (vs, rs) /\ index_column (m_structure a) c = Done rs /\
    length vs = length rs /\ StronglySorted lt rs /\ (forall r, In r rs <-> structural (m_structure a) r c) /\
    Forall (fun r => r < s_nrows (m_structure a))%nat rs /\
    forall i, spread rs vs i = A i c.
Proof.
  intros W HA Hc. destruct W as [W Wv]. set (s := m_structure a) in *. pose proof (wf_count _ W) as Wc.
  destruct (nth_error_ex (s_column_pointers s) c) as [p Hp]; [lia|].
  destruct (nth_error_ex (s_column_pointers s) (S c)) as [q Hq]; [lia|].
  pose proof (wf_ordered _ W c p q (conj Hp Hq)) as Hpq. pose proof (wf_pointers_le _ _ _ W Hq) as Hql.
  destruct (index_column_ok s c W Hc) as (rs & Ers & Irs).
  assert (Erange : index_column_range s c = Done (p, q)).
  { unfold index_column_range. rewrite Wc. destruct (Nat.leb_spec (s_ncols s + 1) (c + 1)); [lia|].
    rewrite Nat.add_1_r, (proj2 (oget_done _ _ _) Hp), (proj2 (oget_done _ _ _) Hq). reflexivity. }
  pose proof Ers as Ers'. unfold index_column in Ers'. rewrite Erange in Ers'. cbn [obind] in Ers'.
  rewrite oslice_ok in Ers' by lia. injection Ers' as Ers'.
  exists (firstn (q - p) (skipn p (m_values a))), rs.
  assert (Lrs : length rs = (q - p)%nat) by (rewrite <- Ers', firstn_length, skipn_length; lia).
  assert (Nrs : forall k r, nth_error rs k = Some r -> nth_error (s_row_indices s) (p + k) = Some r).
  { intros k r H. rewrite <- Ers', nth_error_firstn, nth_error_skipn in H. now destruct (Nat.ltb k (q - p)). }
  assert (Srs : StronglySorted lt rs).
  { apply Sorted_StronglySorted; [intros x y z; lia|].
    assert (G : forall k r r', nth_error rs k = Some r -> nth_error rs (S k) = Some r' -> (r < r')%nat).
    { intros k r r' H1 H2. pose proof (nth_error_lt _ _ _ H2).
      apply (wf_increasing _ W c p q (p + k) r r'); [split; assumption|lia|lia|now apply Nrs|].
      replace (S (p + k)) with (p + S k)%nat by lia. now apply Nrs. }
    clear - G. induction rs as [|r rs IH]; constructor.
    - apply IH. intros k. exact (G (S k)).
    - destruct rs as [|r' rs]; constructor. apply (G 0%nat); reflexivity. }
  split.
  { unfold matrix_column. fold s. rewrite Erange. cbn [obind]. rewrite !oslice_ok by lia. cbn [obind].
    rewrite Ers'. reflexivity. }
  split; [exact Ers|]. split; [rewrite firstn_length, skipn_length; lia|]. split; [exact Srs|]. split; [exact Irs|].
  split.
  { apply Forall_forall. intros r Hr. apply In_nth_error in Hr. destruct Hr as (k & Hk).
    apply (wf_bound _ W (p + k)). now apply Nrs. }
  intros i. destruct (in_dec Nat.eq_dec i rs) as [Hin|Hout].
  - apply In_nth_error in Hin. destruct Hin as (k & Hk). pose proof (nth_error_lt _ _ _ Hk) as Hk'.
    destruct (nth_error_ex (m_values a) (p + k)) as (v & Hv); [rewrite Wv; fold s; lia|].
    rewrite (spread_in rs _ k i v (sorted_lt_NoDup _ Srs) Hk).
    + symmetry. apply (element_entry a (WellFormedMatrix _ W Wv) A HA). exists (p + k)%nat. split; [|exact Hv].
      exists p, q. split; [split; assumption|]. split; [lia|]. split; [lia|]. now apply Nrs.
    + rewrite nth_error_firstn, nth_error_skipn. destruct (Nat.ltb_spec k (q - p)); [exact Hv|lia].
  - rewrite spread_out by exact Hout. symmetry. apply (element_none a A HA). intros H. apply Hout. now apply Irs.
Qed.

(** The structure laid out from increasing columns is well-formed. *)
Lemma layout_wf nrows cols :
  Forall (fun c => StronglySorted lt c /\ Forall (fun r => r < nrows)%nat c) cols -> well_formed (layout nrows cols).
Proof.
  intros F. rewrite Forall_forall in F.
  assert (Hcol : forall j p q, column (layout nrows cols) j p q ->
    exists c, nth_error cols j = Some c /\ p = offset cols j /\ q = (offset cols j + length c)%nat).
  { intros j p q [Hp Hq]. cbn [layout s_column_pointers] in *.
    assert (Hj : (j < length cols)%nat).
    { apply nth_error_lt in Hq. rewrite pointers_length, map_length in Hq. lia. }
    destruct (nth_error_ex _ _ Hj) as (c & Hc). exists c. split; [exact Hc|].
    rewrite pointers_nth in Hp, Hq by lia. rewrite (offset_S _ _ _ Hc) in Hq. injection Hp as <-. injection Hq as <-. auto. }
  assert (Hat : forall j c k, nth_error cols j = Some c -> (k < length c)%nat ->
     nth_error (concat cols) (offset cols j + k) = nth_error c k).
  { intros j c k Hc Hk. rewrite (segment _ _ _ Hc). unfold offset.
    rewrite nth_error_app2 by lia. replace (_ - _)%nat with k by lia. now rewrite nth_error_app1. }
  constructor.
  - cbn [layout s_column_pointers s_ncols]. rewrite pointers_length, map_length. lia.
  - reflexivity.
  - cbn [layout s_column_pointers s_ncols s_row_indices]. rewrite pointers_nth by lia. now rewrite offset_all.
  - intros j p q H. destruct (Hcol j p q H) as (c & _ & -> & ->). lia.
  - intros k i H. cbn in H. apply nth_error_In in H. apply in_concat in H. destruct H as (c & Hc & Hi).
    destruct (F c Hc) as [_ B]. rewrite Forall_forall in B. now apply B.
  - intros j p q k i i' H H1 H2 H3 H4. destruct (Hcol j p q H) as (c & Hc & -> & ->).
    cbn [layout s_row_indices] in *.
    replace k with (offset cols j + (k - offset cols j))%nat in H3 by lia.
    replace (S k) with (offset cols j + S (k - offset cols j))%nat in H4 by lia.
    rewrite (Hat j c) in H3 by (auto; lia). rewrite (Hat j c) in H4 by (auto; lia).
    destruct (F c (nth_error_In _ _ Hc)) as [S1 _]. eapply (strongly_nth lt c); eauto.
Qed.

Lemma layout_represents nrows cols (vals : list (list R)) :
  Forall (fun c => StronglySorted lt c /\ Forall (fun r => r < nrows)%nat c) cols ->
  map (@length _) vals = map (@length _) cols ->
  well_formed_matrix (Matrix (layout nrows cols) (concat vals)) /\
  represents 0 (Matrix (layout nrows cols) (concat vals)) (fun i j => spread (nth j cols []) (nth j vals []) i).
Proof.
  intros F Hl. pose proof (layout_wf _ _ F) as W.
  assert (WM : well_formed_matrix (Matrix (layout nrows cols) (concat vals))).
  { constructor; [exact W|]. cbn. rewrite <- !list_sum_lengths, Hl. reflexivity. }
  split; [exact WM|].
  destruct (represents_ex 0 _ WM) as (A & HA).
  intros i j. replace (spread (nth j cols []) (nth j vals []) i) with (A i j); [apply HA|].
  destruct (Nat.lt_ge_cases j (length cols)) as [Hj|Hj].
  - destruct (column_facts _ A j WM HA) as (vs & rs & E1 & E2 & _ & _ & _ & _ & V); [exact Hj|].
    rewrite <- V. destruct (nth_error_ex _ _ Hj) as (c & Hc). destruct (lengths_nth _ _ _ _ Hl Hc) as (v & Hv & Lv).
    cbn [m_structure] in E2. rewrite (layout_column _ _ _ _ Hc) in E2. injection E2 as <-.
    unfold matrix_column in E1. cbn [m_structure m_values] in E1. rewrite layout_range in E1 by exact Hj. cbn [obind] in E1.
    rewrite (offset_same cols vals j), (offset_same cols vals (S j)) in E1 by (symmetry; exact Hl).
    rewrite (slice_concat _ _ _ Hv) in E1. cbn [obind] in E1. apply obind_done in E1. destruct E1 as (r & _ & E1).
    injection E1 as <- _. rewrite (nth_error_nth _ _ _ Hc), (nth_error_nth _ _ _ Hv). reflexivity.
  - rewrite (nth_overflow cols) by exact Hj. cbn. apply (element_none _ A HA).
    intros (k & p & q & [_ Hq] & _). cbn [m_structure layout s_column_pointers] in Hq. apply nth_error_lt in Hq.
    rewrite pointers_length, map_length in Hq. lia.
Qed.

(** ** The whole *)
Definition rows_of (s : structure) (c : nat) : list nat :=
  match index_column s c with Done l => l | _ => [] end.

(** What the symbolic factorization has to provide *)
Record symbolic_ok (s : structure) (sq : symbolic_qr) (rho : nat -> nat) (Rs Hs : list (list nat)) : Prop := SymbolicOk {
  so_shape : (s_ncols s <= s_nrows s)%nat;
  so_r : sq_r_structure sq = layout (s_ncols s) Rs;
  so_h : sq_h_structure sq = layout (s_nrows s) Hs;
  so_lr : length Rs = s_ncols s;
  so_lh : length Hs = s_ncols s;
  so_row : forall i, (i < s_nrows s)%nat -> permuted_row sq i = Done (rho i) /\ (rho i < s_nrows s)%nat;
  so_inj : forall i i', (i < s_nrows s)%nat -> (i' < s_nrows s)%nat -> rho i = rho i' -> i = i';
  so_hcol : forall j, (j < s_ncols s)%nat -> exists t, nth_error Hs j = Some (j :: t) /\
    NoDup t /\ Forall (fun r => j < r < s_nrows s)%nat t;
  so_rcol : forall j, (j < s_ncols s)%nat -> exists t, nth_error Rs j = Some (t ++ [j]) /\
    StronglySorted lt t /\ Forall (fun r => r < j)%nat t;
  so_above : forall j r, (j < s_ncols s)%nat ->
    support Rs Hs rho (fun j => rows_of s (nth j (sq_col_permutation sq) 0%nat)) j j r -> (r < j)%nat -> In r (RR Rs j);
  so_below : forall j r, (j < s_ncols s)%nat ->
    support Rs Hs rho (fun j => rows_of s (nth j (sq_col_permutation sq) 0%nat)) j j r -> (j <= r)%nat -> In r (HR Hs j);
  so_apart : forall j k r, (j < s_ncols s)%nat -> (k < j)%nat -> ~ In k (RR Rs j) -> In r (HR Hs k) ->
    ~ support Rs Hs rho (fun j => rows_of s (nth j (sq_col_permutation sq) 0%nat)) j k r;
  so_ordering : is_ordering (s_ncols s) (sq_col_permutation sq);
  so_inverse : forall A (x : list A), length x = s_nrows s -> exists x', permute_slice (sq_inverse sq) x = Done x' /\
    length x' = s_nrows s /\ forall j c, nth_error (sq_col_permutation sq) j = Some c -> nth_error x' c = nth_error x j
}.

Lemma ordering_bound n p : is_ordering n p -> length p = n /\ NoDup p /\ forall j c, nth_error p j = Some c -> (c < n)%nat.
Proof.
  intros P. split; [rewrite (Permutation_length P); apply seq_length|]. split.
  - apply (Permutation_NoDup (Permutation_sym P)), seq_NoDup.
  - intros j c H. apply nth_error_In in H. apply (Permutation_in _ P), in_seq in H. lia.
Qed.

Lemma ordering_seq n p : is_ordering n p -> Permutation (map (fun j => nth j p 0%nat) (seq 0 n)) (seq 0 n).
Proof.
  intros P. destruct (ordering_bound _ _ P) as (L & _ & _).
  assert (E : map (fun j => nth j p 0%nat) (seq 0 n) = p).
  { apply nth_error_ext. intros i. rewrite nth_error_map, nth_error_seq. destruct (Nat.ltb_spec i n) as [H|H].
    - cbn. symmetry. apply nth_error_nth'. lia.
    - cbn. symmetry. apply nth_error_None. lia. }
  rewrite E. exact P.
Qed.

Lemma injection_perm m rho : (forall i, (i < m)%nat -> (rho i < m)%nat) ->
  (forall i i', (i < m)%nat -> (i' < m)%nat -> rho i = rho i' -> i = i') -> Permutation (map rho (seq 0 m)) (seq 0 m).
Proof.
  intros B I. apply NoDup_Permutation_bis.
  - assert (G : forall l, NoDup l -> (forall i, In i l -> (i < m)%nat) -> NoDup (map rho l)).
    { induction 1 as [|x l Hx _ IH]; intros Hl; cbn; constructor.
      - intros Hin. apply in_map_iff in Hin. destruct Hin as (y & Ey & Hy). apply Hx.
        rewrite <- (I y x); [exact Hy|apply Hl; now right|apply Hl; now left|exact Ey].
      - apply IH. intros i Hi. apply Hl. now right. }
    apply G; [apply seq_NoDup|]. intros i Hi. apply in_seq in Hi. lia.
  - rewrite map_length. lia.
  - intros x Hx. apply in_map_iff in Hx. destruct Hx as (i & <- & Hi). apply in_seq in Hi. apply in_seq.
    specialize (B i). lia.
Qed.

Theorem solve_ok (s : structure) (sq : symbolic_qr) rho Rs Hs (a : matrix R) (A : nat -> nat -> R) b :
  symbolic_ok s sq rho Rs Hs -> m_structure a = s -> well_formed_matrix a -> represents 0 a A ->
  length b = s_nrows s ->
  exists ok x, obind (factorize sq a) (fun q => qr_solve sq q b) = Done (ok, x) /\ length x = s_nrows s /\
    (ok = true <-> independent_columns (s_nrows s) (s_ncols s) A) /\
    (ok = true -> minimises (s_nrows s) (s_ncols s) A b (firstn (s_ncols s) x)).
Proof.
  intros SO Es W HA Lb.
  set (m := s_nrows s) in *. set (n := s_ncols s) in *. set (ord := sq_col_permutation sq) in *.
  set (cr := fun j => rows_of s (nth j ord 0%nat)).
  set (cv := fun j => match matrix_column a (nth j ord 0%nat) with Done (vs, _) => vs | _ => [] end).
  pose proof (so_ordering _ _ _ _ _ SO) as Ho. fold n ord in Ho.
  destruct (ordering_bound _ _ Ho) as (Lo & No & Bo).
  pose proof (so_shape _ _ _ _ _ SO) as Hmn. fold m n in Hmn.
  assert (Hord : forall j, (j < n)%nat -> nth_error ord j = Some (nth j ord 0%nat)) by (intros; apply nth_error_nth'; lia).
  assert (Hcol : forall j, (j < n)%nat -> exists c, oget ord j = Done c /\ matrix_column a c = Done (cv j, cr j) /\
     length (cv j) = length (cr j) /\ NoDup (cr j) /\ Forall (fun i => i < m)%nat (cr j) /\
     forall i, spread (cr j) (cv j) i = A i (nth j ord 0%nat)).
  { intros j Hj. exists (nth j ord 0%nat). split; [unfold oget; now rewrite Hord|].
    destruct (column_facts a A (nth j ord 0%nat) W HA) as (vs & rs & E1 & E2 & L & S1 & _ & B & V).
    { rewrite Es. apply (Bo j). now apply Hord. }
    rewrite Es in *. unfold cv, cr, rows_of. rewrite E1, E2. split; [reflexivity|]. split; [exact L|].
    split; [now apply sorted_lt_NoDup|]. split; [exact B|exact V]. }
  pose proof (so_inj _ _ _ _ _ SO) as Hinj. pose proof (so_row _ _ _ _ _ SO) as Hrow.
  destruct (factorize_ok m n Rs Hs sq a rho cv cr) as (rv & hv & betas & Ef & Lrv & Lhv & Lbe & Gor & Gcol & _);
    try first [exact (so_r _ _ _ _ _ SO) | exact (so_h _ _ _ _ _ SO) | exact (so_lr _ _ _ _ _ SO) | exact (so_lh _ _ _ _ _ SO) | exact (so_row _ _ _ _ _ SO) | exact (so_inj _ _ _ _ _ SO) | exact (so_hcol _ _ _ _ _ SO) | exact (so_rcol _ _ _ _ _ SO) | exact (so_above _ _ _ _ _ SO) | exact (so_below _ _ _ _ _ SO) | exact (so_apart _ _ _ _ _ SO)].
  { intros j Hj. destruct (Hcol j Hj) as (c & H1 & H2 & H3 & H4 & H5 & _). exists c. repeat split; assumption. }
  { now rewrite Es. }
  { exact Hmn. }
  rewrite Ef. cbn [obind]. unfold qr_solve.
  destruct (q_tr_mul_ok m n Rs Hs sq a rho) with (rv := rv) (hv := hv) (betas := betas) (b := b)
    as (y0 & y & Ey & Ly & V0 & Vy); auto;
    try first [exact (so_r _ _ _ _ _ SO) | exact (so_h _ _ _ _ _ SO) | exact (so_lr _ _ _ _ _ SO) | exact (so_lh _ _ _ _ _ SO) | exact (so_row _ _ _ _ _ SO) | exact (so_inj _ _ _ _ _ SO) | exact (so_hcol _ _ _ _ _ SO) | exact (so_rcol _ _ _ _ _ SO) | exact (so_above _ _ _ _ _ SO) | exact (so_below _ _ _ _ _ SO) | exact (so_apart _ _ _ _ _ SO)].
  { now rewrite Es. }
  rewrite Ey. cbn [obind]. rewrite (so_r _ _ _ _ _ SO). cbn [layout s_nrows]. fold n.
  rewrite oslice_ok by lia. cbn [obind]. rewrite Nat.sub_0_r. cbn [skipn].
  change (Structure n (length Rs) (concat Rs) (pointers_of (map (@length nat) Rs))) with (layout n Rs).
  cbn [qr_r_values].
  assert (FR : Forall (fun c => StronglySorted lt c /\ Forall (fun r => r < n)%nat c) Rs).
  { apply Forall_forall. intros c Hc. apply In_nth_error in Hc. destruct Hc as (j & Hj).
    pose proof (nth_error_lt _ _ _ Hj) as Hj'. rewrite (so_lr _ _ _ _ _ SO) in Hj'.
    destruct (so_rcol _ _ _ _ _ SO j Hj') as (t & Et & St & Ft). rewrite Et in Hj. injection Hj as <-. split.
    - now apply Proofs_Convert.strongly_snoc.
    - apply Forall_app. split; [eapply Forall_impl; [|exact Ft]; cbn; intros; fold n in Hj'; lia|constructor; [exact Hj'|constructor]]. }
  set (U := fun i j => spread (nth j Rs []) (nth j rv []) i).
  destruct (layout_represents n Rs rv FR Lrv) as [WR RR0]. fold U in RR0.
  assert (Uup : forall i j, (j < i)%nat -> U i j = 0).
  { intros i j Hij. unfold U. apply spread_out. intros Hin.
    destruct (Nat.lt_ge_cases j n) as [Hj|Hj].
    - destruct (so_rcol _ _ _ _ _ SO j Hj) as (t & Et & _ & Ft). rewrite (nth_error_nth _ _ _ Et) in Hin.
      apply in_app_or in Hin as [Hin|[Hin|[]]]; [|lia]. rewrite Forall_forall in Ft. specialize (Ft _ Hin). lia.
    - rewrite nth_overflow in Hin; [destruct Hin|]. now rewrite (so_lr _ _ _ _ _ SO). }
  assert (Hsq : (s_nrows (m_structure (Matrix (layout n Rs) (concat rv))) <=
                 s_ncols (m_structure (Matrix (layout n Rs) (concat rv))))%nat).
  { cbn. rewrite (so_lr _ _ _ _ _ SO). fold n. lia. }
  assert (Lfront : length (firstn n y) = n) by (rewrite firstn_length; lia).
  destruct (triangular_ok _ WR Hsq zero_zero_R (firstn n y)) as (ok & x & Et & Lx & Hok).
  { exact Lfront. }
  change (s_nrows (m_structure (Matrix (layout n Rs) (concat rv)))) with n in *.
  rewrite Et. cbn [obind].
  assert (Lxy : length (x ++ skipn n y) = m).
  { rewrite app_length, skipn_length, Lx. lia. }
  destruct (so_inverse _ _ _ _ _ SO R (x ++ skipn n y) Lxy) as (x' & Ep & Lx' & Vx'). fold ord in Vx'.
  rewrite Ep. cbn [obind].
  (* the linear algebra *)
  set (Qm := refls m Hs hv betas (seq 0 n)).
  set (col := acol rho cv cr).
  assert (Qort : orthogonal m Qm).
  { apply refls_orthogonal. intros k Hk. apply in_seq in Hk. apply Gor. lia. }
  assert (Qlin0 : forall (z : nat -> R) l i, (i < m)%nat ->
    Qm (fun i => rsum (fun j => z j * col j i) l) i = rsum (fun j => z j * Qm (col j) i) l).
  { intros z l i Hi. unfold rsum. unfold Qm.
    rewrite (refls_sum m Hs hv betas (seq 0 n) (fun j i => z j * col j i) l i Hi).
    change (rsum (fun j => refls m Hs hv betas (seq 0 n) (fun i => z j * col j i) i) l =
            rsum (fun j => z j * refls m Hs hv betas (seq 0 n) (col j) i) l).
    apply rsum_ext. intros j _. now apply refls_scal. }
  assert (Qlin : forall (z : nat -> R) l i, (i < m)%nat ->
    Qm (fun i => rsum (fun j => z j * col j i) l - y0 i) i = rsum (fun j => z j * Qm (col j) i) l - Qm y0 i).
  { intros z l i Hi. rewrite <- Qlin0 by exact Hi.
    replace (_ - _) with (1 * Qm (fun i => rsum (fun j => z j * col j i) l) i + -1 * Qm y0 i) by lra.
    unfold Qm. rewrite <- refls_linear by exact Hi. apply refls_ext; [|exact Hi]. intros; lra. }
  assert (Qcol : forall j i, (j < n)%nat -> (i < m)%nat -> Qm (col j) i = U i j).
  { intros j i Hj Hi. apply Gcol; assumption. }
  assert (Hcola : forall i j, (i < m)%nat -> (j < n)%nat -> col j (rho i) = A i (nth j ord 0%nat)).
  { intros i j Hi Hj. destruct (Hcol j Hj) as (c & _ & _ & H3 & H4 & H5 & V). rewrite <- V. unfold col, acol.
    rewrite Forall_forall in H5.
    assert (Nm : NoDup (map rho (cr j))).
    { clear - Hinj H4 H5. induction H4 as [|r l Hr _ IH]; cbn; constructor.
      - intros Hin. apply in_map_iff in Hin. destruct Hin as (r' & Er & Hr'). apply Hr.
        rewrite <- (Hinj r' r); auto; [apply H5; now right|apply H5; now left].
      - apply IH. intros r' Hr'. apply H5. now right. }
    destruct (in_dec Nat.eq_dec i (cr j)) as [Hin|Hout].
    - apply In_nth_error in Hin. destruct Hin as (k & Hk).
      destruct (nth_error_ex (cv j) k) as (v & Hv); [rewrite H3; eapply nth_error_lt; eauto|].
      rewrite (spread_in _ _ k i v H4 Hk Hv). apply (spread_in _ _ k); auto. now apply map_nth_error.
    - rewrite (spread_out (cr j)) by exact Hout. apply spread_out. intros Hin. apply in_map_iff in Hin.
      destruct Hin as (r' & Er & Hr'). apply Hout. rewrite <- (Hinj r' i); auto. }
  (* from the columns in order to those of the matrix *)
  assert (Hprod : forall z i, (i < m)%nat -> product n A z i = comb n col (fun j => nth (nth j ord 0%nat) z 0) (rho i)).
  { intros z i Hi. unfold product, comb. rewrite <- (rsum_perm _ _ _ (ordering_seq n ord Ho)), rsum_map.
    apply rsum_ext. intros j Hj. apply in_seq in Hj. rewrite Hcola by lia. lra. }
  assert (Hinner : forall f : nat -> R, rsum f (seq 0 m) = rsum (fun i => f (rho i)) (seq 0 m)).
  { intros f. rewrite <- (rsum_map f rho). apply rsum_perm, Permutation_sym, injection_perm.
    - intros i Hi. now apply Hrow.
    - exact Hinj. }
  assert (Hres : forall z, residual m n A b z = error m n col y0 (fun j => nth (nth j ord 0%nat) z 0)).
  { intros z. unfold residual, error, inner. etransitivity; [|symmetry; apply Hinner]. apply rsum_ext. intros i Hi. apply in_seq in Hi.
    rewrite Hprod, V0 by lia. reflexivity. }
  exists ok, x'. split; [reflexivity|]. split; [exact Lx'|].
  assert (Hdiag : ok = true <-> forall j, (j < n)%nat -> U j j <> 0).
  { rewrite Hok. split; intros H j Hj.
    - apply (solvable_R _ WR U RR0 j). now apply H.
    - apply (solvable_R _ WR U RR0 j). split; [now apply H|]. intros r (k & p & q & Hc & H1 & H2 & H3).
      destruct (Nat.le_gt_cases r j) as [|Hgt]; [assumption|]. exfalso.
      assert (In r (nth j Rs [])).
      { destruct (nth_error_ex Rs j) as (c & Hc'); [rewrite (so_lr _ _ _ _ _ SO); exact Hj|].
        rewrite (nth_error_nth _ _ _ Hc').
        destruct (index_column_ok (layout n Rs) j (wfm_structure _ WR)) as (rows & Er & Ir).
        { cbn. rewrite (so_lr _ _ _ _ _ SO). exact Hj. }
        rewrite (layout_column _ _ _ _ Hc') in Er. injection Er as <-. apply Ir. exists k, p, q. auto. }
      destruct (so_rcol _ _ _ _ _ SO j Hj) as (t & Ett & _ & Ft). rewrite (nth_error_nth _ _ _ Ett) in H0.
      apply in_app_or in H0 as [H0|[H0|[]]]; [|lia]. rewrite Forall_forall in Ft. specialize (Ft _ H0). lia. }
  split.
  - rewrite Hdiag. split.
    + intros Hd z Lz Hz c Hc.
      assert (Hz' : forall i, (i < m)%nat -> comb n col (fun j => nth (nth j ord 0%nat) z 0) i = 0).
      { intros i Hi.
        assert (Hin : In i (map rho (seq 0 m))).
        { apply (Permutation_in _ (Permutation_sym (injection_perm m rho (fun i Hi => proj2 (Hrow i Hi)) Hinj))), in_seq. lia. }
        apply in_map_iff in Hin. destruct Hin as (r & <- & Hr'). apply in_seq in Hr'.
        rewrite <- Hprod by lia. apply Hz. lia. }
      pose proof (proj1 (top_zero m n Qm col U Hmn Qlin0 Qort Qcol Uup (fun j => nth (nth j ord 0%nat) z 0)) Hz') as Ht.
      assert (Hin : In c (map (fun j => nth j ord 0%nat) (seq 0 n))).
      { apply (Permutation_in _ (Permutation_sym (ordering_seq n ord Ho))), in_seq. lia. }
      apply in_map_iff in Hin. destruct Hin as (j & <- & Hj). apply in_seq in Hj.
      apply (upper_zero m n U Hmn Uup (fun j => nth (nth j ord 0%nat) z 0) Hd Ht j). lia.
    + intros Hind j Hj Ej.
      destruct (upper_dependent m n U Hmn Uup) as (z & k & Hk & Hnz & Hz); [now exists j|].
      (* the coefficients in the order of the matrix *)
      assert (Hzl : exists zl : list R, length zl = n /\ forall j, (j < n)%nat -> nth (nth j ord 0%nat) zl 0 = z j).
      { exists (map (fun c => match find (fun j => Nat.eqb (nth j ord 0%nat) c) (seq 0 n) with Some j => z j | None => 0 end) (seq 0 n)).
        split; [now rewrite map_length, seq_length|]. intros j' Hj'.
        assert (Hc : (nth j' ord 0 < n)%nat) by (apply (Bo j'), Hord, Hj').
        erewrite nth_error_nth; [|apply map_nth_error; rewrite nth_error_seq; destruct (Nat.ltb_spec (nth j' ord 0%nat) n); [reflexivity|lia]].
        cbn [Nat.add]. destruct (find _ (seq 0 n)) as [k'|] eqn:Ek.
        - apply find_some in Ek. destruct Ek as [Hk' Ek]. apply in_seq in Hk'. apply Nat.eqb_eq in Ek. f_equal.
          rewrite NoDup_nth_error in No. apply No; [lia|]. rewrite !Hord by lia. congruence.
        - exfalso. pose proof (find_none _ _ Ek j') as Hn. cbn in Hn. rewrite Nat.eqb_refl in Hn.
          assert (In j' (seq 0 n)) by (apply in_seq; lia). specialize (Hn H). discriminate. }
      destruct Hzl as (zl & Lzl & Vzl).
      apply Hnz. rewrite <- Vzl by exact Hk.
      apply (Hind zl Lzl); [|apply (Bo k), Hord, Hk].
      intros i Hi. rewrite Hprod by exact Hi.
      apply (proj2 (top_zero m n Qm col U Hmn Qlin0 Qort Qcol Uup (fun j => nth (nth j ord 0%nat) zl 0))); [|apply Hrow, Hi].
      intros r Hr'. transitivity (top n U z r); [|apply Hz, Hr']. unfold top. apply rsum_ext. intros j' Hj'. apply in_seq in Hj'.
      cbn beta; rewrite Vzl by lia. reflexivity.
  - intros Eok z Lz. rewrite !Hres. apply (error_minimal m n Qm col U y0 Hmn Qlin Qort Qcol Uup).
    subst ok. destruct (triangular_solve _ WR Hsq U RR0 (firstn n y) x Et) as [_ Hx].
    change (s_nrows (m_structure (Matrix (layout n Rs) (concat rv)))) with n in Hx.
    intros i Hi. unfold Qm. rewrite <- Vy by lia. unfold top.
    transitivity (nth i (firstn n y) 0).
    + rewrite <- (Hx i Hi). apply rsum_ext. intros j Hj. apply in_seq in Hj. f_equal.
      assert (Hc : (nth j ord 0 < n)%nat) by (apply (Bo j), Hord; lia).
      assert (Ex : nth_error x' (nth j ord 0%nat) = Some (nth j x 0)).
      { rewrite (Vx' j (nth j ord 0%nat)) by (apply Hord; lia). rewrite nth_error_app1 by lia.
        apply nth_error_nth'. lia. }
      apply nth_error_nth. rewrite nth_error_firstn. destruct (Nat.ltb_spec (nth j ord 0%nat) n); [exact Ex|lia].
    + unfold coords. apply nth_error_nth. rewrite nth_error_firstn. destruct (Nat.ltb_spec i n); [|lia].
      apply nth_error_nth'. lia.
Qed.
