(** The column ordering from end to end *)
From Coq Require Import List Arith ZArith Lia Bool Permutation.
From Verif Require Import Outcome Lib ModelColamd Spec_Colamd Proofs_Zlist Proofs_Order Proofs_View Proofs_Invariant Proofs_Search.
From Verif Require Proofs_Init.
Import ListNotations.
Local Open Scope Z_scope.

Lemma element_znth l i : 0 <= i -> element l i = znth 0 l i.
Proof. intros H. unfold element, znth. destruct (Z.ltb_spec i 0); [lia|reflexivity]. Qed.

Section Sorted.
  Variables (n_row n_col : Z) (rows pointers : list Z).
  Hypothesis SC : sorted_columns n_row n_col rows pointers.
  Let pt := znth 0 pointers.

  Lemma sorted_pt c : 0 <= c -> pt c = element pointers c.
  Proof. intros H. symmetry. now apply element_znth. Qed.
  Lemma sorted_pt0 : pt 0 = 0.
  Proof. rewrite sorted_pt by lia. apply (sc_first _ _ _ _ SC). Qed.
  Lemma sorted_mono c : 0 <= c < n_col -> pt c <= pt (c + 1).
  Proof. intros H. rewrite !sorted_pt by lia. now apply (sc_up _ _ _ _ SC). Qed.
  Lemma sorted_range c : 0 <= c <= n_col -> 0 <= pt c <= pt n_col.
  Proof. apply (Proofs_Init.pt_range n_col pt sorted_pt0 sorted_mono). Qed.

  (** [a] reads the entries of the columns. *)
  Variable a : Z -> Z.
  Hypothesis Ha : forall i, 0 <= i < pt n_col -> a i = element rows i.

  Lemma sorted_rng c r : 0 <= c < n_col -> In r (Proofs_Init.E pt a c) -> 0 <= r < n_row.
  Proof.
    intros Hc Hr. apply In_seg in Hr. destruct Hr as (i & Hi & ->). pose proof (sorted_range c ltac:(lia)). pose proof (sorted_range (c + 1) ltac:(lia)).
    rewrite Ha by lia. apply (sc_rows _ _ _ _ SC c i Hc). rewrite <- !sorted_pt by lia. lia.
  Qed.
  Lemma sorted_less c i j : 0 <= c < n_col -> pt c <= i -> i < j -> j < pt (c + 1) -> a i < a j.
  Proof.
    intros Hc Hi Hij Hj. pose proof (sorted_range c ltac:(lia)) as P1. pose proof (sorted_range (c + 1) ltac:(lia)) as P2.
    assert (G : forall k, i + 1 + Z.of_nat k < pt (c + 1) -> a i < a (i + 1 + Z.of_nat k)).
    { induction k as [|k IH]; intros L.
      - rewrite Z.add_0_r. rewrite !Ha by lia. apply (sc_sorted _ _ _ _ SC c i Hc); rewrite <- sorted_pt by lia; lia.
      - specialize (IH ltac:(lia)). replace (i + 1 + Z.of_nat (S k)) with (i + 1 + Z.of_nat k + 1) in * by lia.
        assert (a (i + 1 + Z.of_nat k) < a (i + 1 + Z.of_nat k + 1)); [|lia]. rewrite !Ha by lia. apply (sc_sorted _ _ _ _ SC c _ Hc); rewrite <- sorted_pt by lia; lia. }
    specialize (G (Z.to_nat (j - i - 1))). replace (i + 1 + Z.of_nat (Z.to_nat (j - i - 1))) with j in G by lia. auto.
  Qed.
  Lemma sorted_srt c pre x post : 0 <= c < n_col -> Proofs_Init.E pt a c = pre ++ x :: post -> forall y, In y pre -> y < x.
  Proof.
    intros Hc E y Hy. pose proof (sorted_mono c Hc) as M. unfold Proofs_Init.E in E.
    assert (L : pt (c + 1) - pt c = zlen pre + (1 + zlen post)). { pose proof (seg_length a (pt c) (pt (c + 1) - pt c) ltac:(lia)) as X. rewrite E, zlen_app, zlen_cons in X. lia. }
    pose proof (zlen_nonneg pre). pose proof (zlen_nonneg post).
    assert (Ex : x = a (pt c + zlen pre)).
    { rewrite <- (znth_seg a (pt c) (pt (c + 1) - pt c)) by lia. rewrite E. unfold znth, zlen. destruct (Z.ltb_spec (Z.of_nat (length pre)) 0); [lia|]. rewrite Nat2Z.id. rewrite app_nth2, Nat.sub_diag by lia. reflexivity. }
    apply (In_nth _ _ 0) in Hy. destruct Hy as (k & Hk & Ey).
    assert (Ey' : y = a (pt c + Z.of_nat k)).
    { unfold zlen in *. rewrite <- (znth_seg a (pt c) (pt (c + 1) - pt c)) by lia. rewrite E. unfold znth. destruct (Z.ltb_spec (Z.of_nat k) 0); [lia|]. rewrite Nat2Z.id. rewrite app_nth1 by lia. now symmetry. }
    rewrite Ex, Ey'. unfold zlen in *. apply (sorted_less c); auto; lia.
  Qed.
End Sorted.

Lemma colamd_core_ok n_row n_col rows pointers o cs rs need : sorted_columns n_row n_col rows pointers ->
  calculate_sizes n_col n_row (element pointers n_col) = Some (cs, rs, need) ->
  2 * element pointers n_col + n_col + cs + rs = need -> 0 <= cs -> 0 <= rs -> need <= Z.of_nat (length rows) ->
  exists p stats, colamd_core n_row n_col rows pointers o = Done (inr (p, stats)) /\ length p = length pointers /\ st_jumble stats = None /\ column_order n_col (firstn (Z.to_nat n_col) p).
Proof.
  intros SC Sz Hneed Hcs Hrs Hlen. destruct (sc_sizes _ _ _ _ SC) as (Hr & Hc). pose proof (sc_length _ _ _ _ SC) as Lp.
  pose proof (sorted_range _ _ _ _ SC n_col ltac:(lia)) as Pn. rewrite (sorted_pt pointers n_col Hc) in Pn. set (nnz := element pointers n_col) in *.
  unfold colamd_core. destruct (Z.ltb_spec n_row 0), (Z.ltb_spec n_col 0); try lia.
  rewrite (zget_ok 0) by (unfold zlen; lia). cbn [obind]. rewrite <- element_znth by lia. fold nnz. destruct (Z.ltb_spec nnz 0); [lia|].
  rewrite (zget_ok 0) by (unfold zlen; lia). cbn [obind]. rewrite <- element_znth by lia. rewrite (sc_first _ _ _ _ SC). change (negb (0 =? 0)) with false. cbv iota.
  rewrite Sz. destruct (Z.ltb_spec (Z.of_nat (length rows)) need); [lia|]. cbv zeta. set (na := Z.of_nat (length rows) - (cs + rs)).
  set (w := Work _ _ _ _). assert (Hna : 2 * nnz + n_col <= na) by lia.
  assert (R : rep n_row n_col na w (view_of w)).
  { apply rep_view; unfold w; cbn [wk_rows wk_cols wk_A wk_head]; unfold zlen; rewrite ?repeat_length, ?firstn_length; lia. }
  set (pt := znth 0 pointers). set (a := znth 0 (wk_A w)).
  assert (Ha : forall i, 0 <= i < znth 0 pointers n_col -> a i = element rows i).
  { intros i Hi. change (znth 0 pointers n_col) with (pt n_col) in Hi. unfold pt in Hi. rewrite <- element_znth in Hi by lia. fold nnz in Hi. unfold a, w. cbn [wk_A]. unfold element, znth. destruct (Z.ltb_spec i 0); [lia|].
    apply Proofs_Init.nth_firstn_lt. lia. }
  assert (Pt : pt n_col = nnz) by (unfold pt; now rewrite <- element_znth by lia).
  assert (G : Proofs_Init.given n_col pt a (view_of w)).
  { split; intros i Hi; reflexivity. }
  destruct (Proofs_Init.init_rows_cols_ok n_row n_col na Hr Hc pt a (sorted_pt0 _ _ _ _ SC) (sorted_mono _ _ _ _ SC) ltac:(lia) (sorted_rng _ _ _ _ SC a Ha) (sorted_srt _ _ _ _ SC a Ha) w _ R G)
    as (w1 & v1 & j & E1 & J1 & R1 & F1).
  rewrite E1. cbn [obind].
  destruct (Proofs_Init.init_scoring_ok n_row n_col na Hr Hc pt a (sorted_pt0 _ _ _ _ SC) (sorted_mono _ _ _ _ SC) ltac:(lia) (sorted_rng _ _ _ _ SC a Ha) (sorted_srt _ _ _ _ SC a Ha) o w1 _ R1 F1)
    as (w2 & v2 & nr2 & n2 & md & D & rt & E2 & R2 & I2).
  rewrite E2. cbn [obind]. rewrite Pt in I2.
  destruct (find_ordering_ok n_row n_col na nnz n2 Hr Hc Hna w2 v2 D rt nnz (2 * nnz) md (aggressive_row_absorption o) R2 I2) as (w3 & ng & E3 & AF & L3). rewrite E3. cbn [obind].
  destruct (order_children_ok n_col (wk_cols w3) (wk_head w3) AF ltac:(lia)) as (cols' & p' & E4 & L4 & CO). rewrite E4. cbn [obind]. do 2 eexists. split; [reflexivity|].
  split; [unfold zlen in *; lia|]. split; [cbn; now rewrite J1|exact CO].
Qed.
