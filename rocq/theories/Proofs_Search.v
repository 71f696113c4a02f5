(** The elimination loop ends with an absorption forest *)
From Coq Require Import List Arith ZArith Lia Bool Permutation.
From Verif Require Import Outcome Lib ModelColamd Spec_Colamd Proofs_Zlist Proofs_Order Proofs_View Proofs_DegreeLists Proofs_Absorb Proofs_Collect Proofs_Gather Proofs_Merge Proofs_Invariant Proofs_Pivot.
Import ListNotations.
Local Open Scope Z_scope.

Section Search.
  Variables nr n na nnz n2 : Z.
  Hypothesis nr0 : 0 <= nr.
  Hypothesis n0 : 0 <= n.
  Hypothesis nnz0 : 0 <= nnz.
  Hypothesis room : 2 * nnz + n <= na.
  Notation rep := (rep nr n na).
  Notation liver := (liver nr).
  Notation livec := (livec n).
  Notation inv := (inv nr n na nnz n2).

  Lemma inv_marks ex v D rt B pf k ms md tag g tag' : inv ex v D rt B pf k ms md tag -> 1 <= tag' ->
    (forall r, 0 <= r < nr -> (0 <= g r <-> 0 <= r2 v r) /\ g r < tag') -> inv ex (up_r2 v g) D rt B pf k ms md tag'.
  Proof.
    intros I T H. assert (Lr : forall r, liver (up_r2 v g) r <-> liver v r).
    { intros r. unfold Proofs_Collect.liver. cbn [up_r2 r2]. split; intros (X & Y); split; auto; apply (H r X); auto. }
    assert (Hu : forall c, livec (up_r2 v g) c <-> livec v c) by reflexivity.
    destruct I. constructor; auto.
    - destruct in_lay. constructor; auto; intros; [apply ly_row|apply ly_rows]; auto; now apply Lr.
    - intros c r Lc Hr. destruct (in_cr c r Lc Hr). split; [now apply Lr|auto].
    - intros r L. apply Lr in L. apply in_row. exact L.
    - intros r c L. apply Lr in L. now apply in_rc.
    - intros r L. apply Lr in L. now apply in_deg.
    - intros r Hr. apply H. exact Hr.
  Qed.

  (** One round *)
  Lemma order_pivot_ok st v D rt B ag : rep (sr_work st) v ->
    inv none v D rt B (sr_pfree st) (sr_k st) (sr_min_score st) (sr_max_deg st) (sr_tag_mark st) -> sr_k st < n2 ->
    exists st' v' D' rt' B', order_pivot nr n na ag st = Done st' /\ rep (sr_work st') v' /\
      inv none v' D' rt' B' (sr_pfree st') (sr_k st') (sr_min_score st') (sr_max_deg st') (sr_tag_mark st') /\ sr_k st + 1 <= sr_k st'.
  Proof.
    intros R I Hk. destruct st as [w k ms md pf tag ng]. cbn [sr_work sr_k sr_min_score sr_max_deg sr_pfree sr_tag_mark sr_garbage] in *.
    destruct (select_ok nr n na nnz n2 n0 w v D rt B pf k ms md tag R I Hk)
      as (s & p & w1 & w2 & f3 & f4 & fh & D2 & E1 & E2 & E3 & E4 & (pc & E5 & P2 & P1) & E6 & R2 & I2 & Lp & Nb).
    set (v2 := View (rs v) (rl v) (r1 v) (r2 v) (cs v) (cl v) (c1 v) (fupd (c2 v) p k) f3 f4 (me v) fh) in *.
    assert (Lp2 : livec v2 p) by exact Lp.
    (* the neighbours of the pivot column *)
    assert (Few : forall L, NoDup L -> (forall x, In x L -> livec v x /\ x <> p /\ exists r, In r (crows v p) /\ In x (rcols v r)) ->
      zlen L <= c2 v p /\ zlen L <= n2 - k - c1 v p).
    { intros L NL HL. pose proof (Nb L NL HL) as X. pose proof (inv_count _ _ _ _ _ _ _ _ _ _ _ _ _ _ _ I L NL) as Y.
      specialize (Y ltac:(intros x Hx; apply (HL x Hx))). split; [lia|].
      pose proof (inv_sum _ _ _ _ _ _ _ _ _ _ _ _ _ _ _ I (p :: L)) as Z. rewrite zsum_cons in Z.
      assert (zsum (c1 v) L + c1 v p <= n2 - k); [|lia]. rewrite Z.add_comm. apply Z.
      - constructor; auto. intros X'. apply HL in X'. tauto.
      - intros x [<-|Hx]; [exact Lp|apply (HL x Hx)]. }
    pose proof (in_n2 _ _ _ _ _ _ _ _ _ _ _ _ _ _ _ I) as Hn2. pose proof (in_k _ _ _ _ _ _ _ _ _ _ _ _ _ _ _ I) as Hk0.
    pose proof (proj2 (proj2 (in_col _ _ _ _ _ _ _ _ _ _ _ _ _ _ _ I p Lp))) as Ht.
    unfold order_pivot. cbv zeta. cbn [sr_work sr_k sr_min_score sr_max_deg sr_pfree sr_tag_mark sr_garbage].
    rewrite E1. cbn [obind]. rewrite E2. cbn [obind]. rewrite E3. cbn [obind vcol cl_shared4].
    change (cl_shared4 (vcol v p)) with (c4 v p).
    destruct (set_head w s (c4 v p)) as [w0| |] eqn:E0; cbn [obind] in E4; [|discriminate|discriminate]. cbn [obind].
    rewrite E4. cbn [obind]. rewrite E5. cbn [obind]. rewrite P2, P1. rewrite E6. cbn [obind].
    destruct (Z.leb_spec na (pf + Z.min (c2 v p) (n - (k + c1 v p)))) as [G|G].
    - destruct (gc_inv nr n na nnz n2 nr0 n0 (eq p) v2 D2 rt B pf k s md tag I2 w2 (2 ^ 31 - 1 - n) R2)
        as (w3 & w4 & v4 & B' & pf' & tag' & E7 & E8 & R4 & I4 & Hpf & Ec1 & Ec2 & Lc4).
      rewrite E7. cbn [obind]. rewrite E8. cbn [obind].
      destruct (eliminate_ok nr n na nnz n2 nr0 n0 w4 v4 D2 rt B' pf' k s md tag' p ag (ng + 1) R4 I4) as (st & v9 & D9 & rt9 & B9 & E9 & R9 & I9 & K9).
      + now apply Lc4.
      + rewrite Ec2. unfold v2. cbn [c2]. apply fupd_same.
      + intros L NL HL. pose proof (inv_count _ _ _ _ _ _ _ _ _ _ _ _ _ _ _ I4 L NL ltac:(intros x Hx; apply (HL x Hx))) as Y.
        pose proof (inv_sum _ _ _ _ _ _ _ _ _ _ _ _ _ _ _ I4 L NL ltac:(intros x Hx; apply (HL x Hx))) as Z. lia.
      + exists st, v9, D9, rt9, B9. rewrite <- E9. rewrite Ec1. split; [reflexivity|]. auto.
    - destruct (eliminate_ok nr n na nnz n2 nr0 n0 w2 v2 D2 rt B pf k s md tag p ag ng R2 I2 Lp2) as (st & v9 & D9 & rt9 & B9 & E9 & R9 & I9 & K9).
      + unfold v2. cbn [c2]. apply fupd_same.
      + intros L NL HL. destruct (Few L NL HL). lia.
      + exists st, v9, D9, rt9, B9. cbn [obind]. rewrite <- E9. split; [reflexivity|]. auto.
  Qed.

  Lemma inv_k_le v D rt B pf k ms md tag : inv none v D rt B pf k ms md tag -> k <= n2.
  Proof.
    intros I. pose proof (in_total _ _ _ _ _ _ _ _ _ _ _ _ _ _ _ I). assert (0 <= zsum (c1 v) (cols_upto v n)); [|lia].
    apply zsum_nonneg. intros x Hx. apply in_upto in Hx. pose proof (proj2 (proj2 (in_col _ _ _ _ _ _ _ _ _ _ _ _ _ _ _ I x Hx))). lia.
  Qed.

  Lemma order_loop_ok ag : forall fuel st v D rt B, rep (sr_work st) v ->
    inv none v D rt B (sr_pfree st) (sr_k st) (sr_min_score st) (sr_max_deg st) (sr_tag_mark st) -> n2 - sr_k st <= Z.of_nat fuel ->
    exists st' v' D' rt' B', order_loop fuel nr n n2 na ag st = Done st' /\ rep (sr_work st') v' /\
      inv none v' D' rt' B' (sr_pfree st') n2 (sr_min_score st') (sr_max_deg st') (sr_tag_mark st').
  Proof.
    induction fuel as [|fuel IH]; intros st v D rt B R I Hf; cbn [order_loop]; destruct (Z.ltb_spec (sr_k st) n2) as [Hk|Hk].
    - lia.
    - exists st, v, D, rt, B. split; [reflexivity|]. split; [exact R|]. pose proof (inv_k_le _ _ _ _ _ _ _ _ _ I). now replace n2 with (sr_k st) at 2 by lia.
    - destruct (order_pivot_ok st v D rt B ag R I Hk) as (st1 & v1 & D1 & rt1 & B1 & E1 & R1 & I1 & K1). rewrite E1. cbn [obind].
      apply (IH st1 v1 D1 rt1 B1 R1 I1). lia.
    - exists st, v, D, rt, B. split; [reflexivity|]. split; [exact R|]. pose proof (inv_k_le _ _ _ _ _ _ _ _ _ I). now replace n2 with (sr_k st) at 2 by lia.
  Qed.

  (** When all columns have a place the tables hold an absorption forest. *)
  Lemma climbs_absorbed w v : rep w v -> (forall c, 0 <= c < n -> cs v c = -1 \/ cs v c = -2) ->
    forall j r, climbs n (cs v) (c1 v) j r -> absorbed_by (wk_cols w) j r.
  Proof.
    intros R H. assert (At : forall c, 0 <= c < n -> column_at (wk_cols w) c (vcol v c)).
    { intros c Hc. apply column_at_znth. rewrite <- (rp_col _ _ _ _ _ R) by lia. pose proof (rp_n _ _ _ _ _ R). split; [lia|reflexivity]. }
    induction 1 as [j Hj N|j r Hj E C IH].
    - apply ab_here with (vcol v j); [now apply At|]. unfold principal. cbn. destruct (H j Hj); [auto|contradiction].
    - apply ab_up with (vcol v j); [now apply At| |exact IH]. unfold principal. cbn. lia.
  Qed.

  Lemma inv_forest w v D rt B pf ms md tag : rep w v -> inv none v D rt B pf n2 ms md tag -> absorption_forest n (wk_cols w).
  Proof.
    intros R I. assert (Dead : forall c, 0 <= c < n -> cs v c = -1 \/ cs v c = -2).
    { intros c Hc. apply (fo_dead _ _ _ _ _ (in_forest _ _ _ _ _ _ _ _ _ _ _ _ _ _ _ I)); auto.
      destruct (Z_lt_dec (cs v c) 0) as [|X]; auto. exfalso. assert (Lc : livec v c) by (split; [auto|lia]).
      pose proof (inv_sum _ _ _ _ _ _ _ _ _ _ _ _ _ _ _ I [c]) as S. pose proof (proj2 (proj2 (in_col _ _ _ _ _ _ _ _ _ _ _ _ _ _ _ I c Lc))).
      rewrite zsum_cons in S. change (zsum (c1 v) []) with 0 in S. specialize (S ltac:(constructor; [intros []|constructor]) ltac:(intros x [<-|[]]; exact Lc)). lia. }
    assert (At : forall c, 0 <= c < n -> column_at (wk_cols w) c (vcol v c)).
    { intros c Hc. apply column_at_znth. rewrite <- (rp_col _ _ _ _ _ R) by lia. pose proof (rp_n _ _ _ _ _ R). split; [lia|reflexivity]. }
    assert (Uq : forall c x, 0 <= c < n -> column_at (wk_cols w) c x -> x = vcol v c).
    { intros c x Hc (_ & X). destruct (At c Hc) as (_ & Y). congruence. }
    pose proof (climbs_absorbed w v R Dead) as CA. destruct (in_forest _ _ _ _ _ _ _ _ _ _ _ _ _ _ _ I) as [F1 F2 F3 F4]. destruct (in_places _ _ _ _ _ _ _ _ _ _ _ _ _ _ _ I) as [Q1 Q2].
    assert (Size : forall r l, 0 <= r < n -> cs v r = -1 -> group_of n (wk_cols w) r l -> Z.of_nat (length l) = c1 v r).
    { intros r l Hr E (NL & HL). rewrite F2 by (auto; lia). change (Z.of_nat (length l)) with (zlen l). apply zlen_same; [exact NL|apply NoDup_filter, zrange_NoDup|].
      intros i. rewrite HL, filter_In, In_zrange, Z.eqb_eq. split.
      - intros (Hi & A). split; auto. eapply absorbed_unique; [|exact A]. apply CA, F1, Hi.
      - intros (Hi & <-). split; auto. }
    pose proof (rp_n _ _ _ _ _ R) as Ln. unfold zlen in Ln.
    constructor.
    - lia.
    - intros i Hi. exists (rt i). split; [apply CA, F1, Hi|]. exact (proj1 (climbs_range _ _ _ _ _ (F1 i Hi))).
    - intros i c Hi Hc N. apply Uq in Hc; auto. subst c. cbn. unfold principal in N. cbn in N. apply F3; auto. destruct (Dead i Hi); [contradiction|auto].
    - intros r c l Hr Hc Pc G. apply Uq in Hc; auto. subst c. unfold principal in Pc. cbn in *. rewrite (Size r l Hr Pc G). pose proof (in_n2 _ _ _ _ _ _ _ _ _ _ _ _ _ _ _ I).
      pose proof (in_k _ _ _ _ _ _ _ _ _ _ _ _ _ _ _ I). destruct (Q1 r Hr Pc); lia.
    - intros r c l r' c' l' Hr Hr' N Hc Pc G Hc' Pc' G'. apply Uq in Hc; auto. apply Uq in Hc'; auto. subst c c'. unfold principal in *. cbn in *.
      rewrite (Size r l Hr Pc G), (Size r' l' Hr' Pc' G'). now apply Q2.
  Qed.

  Lemma find_ordering_ok w v D rt B pf md ag : rep w v -> inv none v D rt B pf 0 0 md 1 ->
    exists w' ng, find_ordering nr n na n2 md pf ag w = Done (w', ng) /\ absorption_forest n (wk_cols w') /\ zlen (wk_head w') = n + 1.
  Proof.
    intros R I. unfold find_ordering.
    destruct (clear_mark_ok nr n na nr0 w v 0 (2 ^ 31 - 1 - n) R) as (w1 & f2 & tag & E1 & R1 & T1 & [(_ & _ & X)|(-> & F)]); [lia|]. rewrite E1. cbn [obind].
    assert (I1 : inv none (up_r2 v f2) D rt B pf 0 0 md 1).
    { eapply inv_marks; [exact I|lia|]. intros r Hr. rewrite F by auto. unfold alive. destruct (Z.leb_spec 0 (r2 v r)); lia. }
    destruct (order_loop_ok ag (length (wk_cols w1)) (Search w1 0 0 md pf 1 0) (up_r2 v f2) D rt B R1 I1) as (st & v' & D' & rt' & B' & E2 & R2 & I2).
    { cbn. pose proof (rp_n _ _ _ _ _ R1) as X. unfold zlen in X. pose proof (in_n2 _ _ _ _ _ _ _ _ _ _ _ _ _ _ _ I). lia. }
    rewrite E2. cbn [obind]. do 2 eexists. split; [reflexivity|]. split; [eapply inv_forest; eauto|]. exact (rp_nh _ _ _ _ _ R2).
  Qed.
End Search.
