(** One round of the elimination, executed *)
From Coq Require Import List Arith ZArith Lia Bool Permutation.
From Verif Require Import Outcome Lib ModelColamd Spec_Colamd Proofs_Zlist Proofs_Order Proofs_View Proofs_DegreeLists Proofs_Absorb Proofs_Collect Proofs_Gather Proofs_Rescore Proofs_Merge Proofs_Invariant Proofs_Round.
Import ListNotations.
Local Open Scope Z_scope.

(** colamd.rs 883-1071: the round after the pivot was chosen and room was made *)
Definition eliminate (n_row n_col : Z) (aggressive : bool) (pivot_col thickness k min_score max_deg0 tag_mark ngarbage : Z) (w : work) (pfree : Z) : outcome search :=
  let max_mark := 2 ^ 31 - 1 - n_col in
  let pivot_row_start := pfree in
  let! w := set_col w pivot_col (cl_set_shared1 (- thickness)) in
  let! pc := col_at w pivot_col in
  let entries := zrange (cl_start pc) (cl_start pc + cl_length pc) in
  let! (w, pfree, degree) := ofold gather_row entries (w, pfree, 0) in
  let! w := set_col w pivot_col (cl_set_shared1 thickness) in
  let max_deg := Z.max max_deg0 degree in
  let! w := ofold kill_row entries w in
  let pivot_row_length := pfree - pivot_row_start in
  let! pivot_row := if 0 <? pivot_row_length then mem_at w (cl_start pc) else Done empty_link in
  let pivot := zrange pivot_row_start (pivot_row_start + pivot_row_length) in
  let! w := ofold (subtract_column tag_mark aggressive) pivot w in
  let! (w, degree, k) := ofold (rescore_column n_col tag_mark) pivot (w, degree, k) in
  let! w := detect_super_cols w pivot_row_start pivot_row_length in
  let! w := set_col w pivot_col (cl_set_start dead_principal) in
  let! (w, tag_mark) := clear_mark (tag_mark + max_deg + 1) max_mark n_row w in
  let! (w, new_rp, min_score) :=
    ofold (finish_column n_col k pivot_row degree) pivot (w, pivot_row_start, min_score) in
  let! w :=
    if 0 <? degree then
      set_row w pivot_row (fun _ => CRow pivot_row_start (new_rp - pivot_row_start) degree 0)
    else Done w in
  Done (Search w k min_score max_deg pfree tag_mark ngarbage).

Section Pivot.
  Variables nr n na nnz n2 : Z.
  Hypothesis nr0 : 0 <= nr.
  Hypothesis n0 : 0 <= n.
  Notation rep := (rep nr n na).
  Notation liver := (liver nr).
  Notation livec := (livec n).
  Notation inv := (inv nr n na nnz n2).

  Lemma eliminate_ok w v D rt B pf k ms md tag p ag ng : rep w v -> inv (eq p) v D rt B pf k ms md tag -> livec v p -> c2 v p = k ->
    (forall L, NoDup L -> (forall x, In x L -> livec v x /\ x <> p /\ exists r, In r (crows v p) /\ In x (rcols v r)) -> pf + zlen L <= na) ->
    exists st v9 D9 rt9 B9, eliminate nr n ag p (c1 v p) (k + c1 v p) ms md tag ng w pf = Done st /\ rep (sr_work st) v9 /\
      inv none v9 D9 rt9 B9 (sr_pfree st) (sr_k st) (sr_min_score st) (sr_max_deg st) (sr_tag_mark st) /\ k + 1 <= sr_k st.
  Proof.
    intros R I Lp Ek Cap. unfold eliminate. cbv zeta. pose proof (proj1 Lp) as Hp. set (t := c1 v p) in *.
    pose proof (in_lay _ _ _ _ _ _ _ _ _ _ _ _ _ _ _ I) as Ly. destruct (ly_B _ _ _ _ _ _ Ly) as (HB & HBn).
    pose proof (inv_entries _ _ _ _ _ _ _ _ _ _ _ _ _ _ _ I) as En.
    pose proof (T1 _ _ _ _ _ _ _ _ _ _ _ _ _ _ _ I) as Tpos. assert (Ht : 1 <= t) by exact (Tpos p Lp).
    (* the pivot row *)
    destruct (set_c1 _ _ _ w v p (- t) R) as (w1 & E1 & R1); [lia|]. rewrite E1. cbn [obind]. vsimpl R1.
    rewrite (col_at_ok _ _ _ _ _ _ R1) by lia. cbn [obind vcol cl_start cl_length cs cl].
    assert (Ly1 : layout nr n na (up_c1 v (fupd (c1 v) p (- t))) B pf) by (destruct Ly; constructor; assumption).
    assert (En1 : entries nr n (up_c1 v (fupd (c1 v) p (- t)))) by (destruct En; constructor; assumption).
    destruct (gather_rows_ok nr n na (up_c1 v (fupd (c1 v) p (- t))) B pf p Ly1 En1) with (w := w1)
      as (((w2 & pf2) & deg) & E2 & P & f1 & m & R2 & Ep & Ed & NP & HP & F1 & F2 & Hm & Sg).
    { exact Lp. } { cbn [up_c1 c1]. rewrite fupd_same. lia. } { cbn [up_c1 c1]. intros c Lc Nc. rewrite fupd_other by auto. now apply Tpos. }
    { exact Cap. } { exact R1. } { intros r Hr. exact (col_row _ _ _ _ _ _ _ _ _ _ _ _ _ _ _ I p r Lp Hr). }
    cbn [fst snd up_c1 c1 cs cl] in *. unfold up_gather in R2. cbn [up_c1 rs rl r1 r2 cs cl c1 c2 c3 c4 me he] in R2, Hm.
    change (forall x, In x P <-> livec v x /\ x <> p /\ (exists r, In r (crows v p) /\ In x (rcols v r))) in HP.
    rewrite E2. cbn [obind].
    assert (Np : ~ In p P) by (intros X; apply HP in X; tauto).
    assert (Ed' : deg = zsum (c1 v) P). { rewrite Ed. apply zsum_ext. intros x Hx. apply fupd_other. intros ->. contradiction. }
    assert (Hna : pf + zlen P <= na) by (apply Cap; auto; intros x Hx; apply HP; auto).
    pose proof (zlen_nonneg P) as ZP.
    destruct (set_c1 _ _ _ w2 _ p t R2) as (w3 & E3 & R3); [lia|]. rewrite E3. cbn [obind]. vsimpl R3.
    (* its rows die *)
    destruct (ly_col _ _ _ _ _ _ Ly p Lp) as (Lcl & Lce). pose proof (proj2 Lp) as Lcs.
    assert (Smp : seg m (cs v p) (cl v p) = crows v p) by (apply seg_ext; intros i Hi; apply Hm; lia).
    destruct (kill_ok nr n na w3 _ (cs v p) (cl v p) R3) as (w4 & g1 & E4 & R4 & K1 & K2); [lia|lia|lia| |].
    { cbn [me]. rewrite Smp. intros r Hr. exact (en_row _ _ _ En p r Lp Hr). }
    cbn [me r2] in K1, K2. rewrite Smp in K1, K2. rewrite E4. cbn [obind]. vsimpl R4.
    rewrite Ep. replace (pf + zlen P - pf) with (zlen P) by lia.
    destruct (in_col _ _ _ _ _ _ _ _ _ _ _ _ _ _ _ I p Lp) as (Lcl1 & _).
    set (pr := if 0 <? zlen P then me v (cs v p) else -1).
    assert (E5 : (if 0 <? zlen P then mem_at w4 (cs v p) else Done empty_link) = Done pr).
    { unfold pr. destruct (0 <? zlen P); [|reflexivity]. rewrite (mem_at_ok _ _ _ _ _ _ R4) by (cbn [me]; lia). cbn [me]. f_equal. apply Hm. lia. }
    rewrite E5. cbn [obind].
    assert (Hpr : P <> [] -> In pr (crows v p)).
    { intros X. unfold pr. destruct (Z.ltb_spec 0 (zlen P)) as [|Y]; [|exfalso; apply X, zlen_0; lia]. apply In_seg. exists (cs v p). split; [lia|reflexivity]. }
    (* the other rows of its columns *)
    assert (PL : forall c, In c P -> livec v c /\ c <> p) by (intros c Hc; apply HP in Hc; tauto).
    assert (Smc : forall c, livec v c -> seg m (cs v c) (cl v c) = crows v c).
    { intros c Lc. apply seg_ext. intros i Hi. apply Hm. destruct (ly_col _ _ _ _ _ _ Ly c Lc). lia. }
    set (v4 := View (rs v) (rl v) (r1 v) g1 (cs v) (cl v) (fupd f1 p t) (c2 v) (c3 v) (c4 v) m (he v)) in *.
    assert (Hhits : forall r, hits v4 (c1 v) P r = ht v P r).
    { intros r. unfold hits, ht. f_equal. apply filter_ext_In. intros c Hc. unfold v4, crows. cbn [me cs cl]. rewrite Smc; [reflexivity|]. now apply PL. }
    destruct (subtract_ok nr n na v4 tag ag (c1 v) P) with (D := D) (w := w4) (a := pf)
      as (w5 & h1 & g2 & f3 & f4 & fh & E6 & R5 & H1 & H1' & H2 & L5).
    { exact (in_tag _ _ _ _ _ _ _ _ _ _ _ _ _ _ _ I). }
    { intros c Hc. apply Tpos, PL, Hc. }
    { exact NP. }
    { intros c Hc. pose proof (proj1 (PL c Hc)) as Lc. unfold v4, crows. cbn [me cs cl c2]. rewrite Smc by auto.
      destruct (ly_col _ _ _ _ _ _ Ly c Lc). split; [exact (proj1 Lc)|]. split; [exact (proj2 Lc)|]. split; [lia|]. split; [lia|].
      split; [exact (proj1 (proj2 (in_col _ _ _ _ _ _ _ _ _ _ _ _ _ _ _ I c Lc)))|]. split; [intros r Hr; exact (en_row _ _ _ En c r Lc Hr)|].
      assert (Npc : p <> c) by (intros <-; contradiction).
      pose proof (in_score _ _ _ _ _ _ _ _ _ _ _ _ _ _ _ I c Lc Npc). pose proof (in_ms _ _ _ _ _ _ _ _ _ _ _ _ _ _ _ I). lia. }
    { intros r Hr. unfold v4. cbn [r2]. pose proof (in_mark _ _ _ _ _ _ _ _ _ _ _ _ _ _ _ I r Hr). pose proof (in_tag _ _ _ _ _ _ _ _ _ _ _ _ _ _ _ I).
      destruct (in_dec Z.eq_dec r (crows v p)) as [X|X]; [rewrite K1 by auto|rewrite K2 by auto]; lia. }
    { intros r Hr. unfold v4 at 1 3. cbn [r2 r1]. intros X. rewrite Hhits. eapply ht_le; eauto. split; auto.
      destruct (in_dec Z.eq_dec r (crows v p)) as [Y|Y]; [rewrite K1 in X by auto; lia|rewrite K2 in X by auto; exact X]. }
    { exact (in_lists _ _ _ _ _ _ _ _ _ _ _ _ _ _ _ I). }
    { intros c Hc. unfold v4. cbn [c2]. apply (in_D _ _ _ _ _ _ _ _ _ _ _ _ _ _ _ I). destruct (PL c Hc). split; [auto|]. split; [congruence|reflexivity]. }
    { intros c Hc. unfold v4. cbn [c1]. rewrite fupd_other by (intros ->; contradiction). rewrite F1 by auto. rewrite fupd_other by (intros ->; contradiction). reflexivity. }
    { exact R4. } { lia. } { lia. } { exact Sg. }
    rewrite E6. cbn [obind]. unfold v4 in R5. cbn [rs rl r1 r2 cs cl c1 c2 c3 c4 me he] in R5.
    assert (Hg : forall r, 0 <= r < nr -> g2 r = if memb r (crows v p) then -1 else if r2 v r <? 0 then r2 v r else if ht v P r =? 0 then r2 v r
      else if (r1 v r =? ht v P r) && ag then -1 else r1 v r - ht v P r + tag).
    { intros r Hr. rewrite H2 by auto. unfold mark_after. rewrite Hhits. unfold v4. cbn [r2 r1]. destruct (in_dec Z.eq_dec r (crows v p)) as [X|X].
      - rewrite K1 by auto. rewrite (proj2 (memb_In _ _) X). reflexivity.
      - rewrite K2 by auto. rewrite (proj2 (memb_false _ _) X). reflexivity. }
    clear H2.
    assert (R5' : rep w5 (View (rs v) (rl v) (r1 v) g2 (cs v) (cl v) (c1 v) (c2 v) f3 f4 m fh)).
    { eapply rep_ext; [exact R5| | | |]; cbn [rs rl r1 r2 cs cl c1 c2 c3 c4 me he]; auto. intros i Hi.
      split; [reflexivity|]. split; [reflexivity|]. split; [|auto].
      destruct (in_dec Z.eq_dec i P) as [X|X]; [now rewrite H1|]. rewrite H1' by auto. unfold v4. cbn [c1]. unfold fupd at 1.
      destruct (Z.eqb_spec p i) as [<-|Y]; [reflexivity|]. rewrite F2 by auto. now rewrite fupd_other by auto. }
    clear R5. clear H1 H1' Hhits. clear R4. clearbody v4. clear v4.
    set (v5 := View (rs v) (rl v) (r1 v) g2 (cs v) (cl v) (c1 v) (c2 v) f3 f4 m fh) in *.
    pose proof (fun c => in_keep nr n na nnz n2 v D rt B pf k ms md tag p I g2 c) as Ik.
    pose proof (survives_live nr v tag p ag P g2 Hg) as Sl.
    assert (Kp : forall c, livec v c -> kept v5 c = keep v g2 c).
    { intros c Lc. unfold kept, keep, aliver. unfold v5 at 2. unfold crows at 1. cbn [me cs cl]. rewrite Smc by auto. reflexivity. }
    assert (Gn : forall c, In c P -> Proofs_Rescore.gone v5 c = gone v g2 c).
    { intros c Hc. unfold Proofs_Rescore.gone, gone. rewrite Kp by now apply PL. reflexivity. }
    assert (Apart : forall c c', livec v c -> livec v c' -> c <> c' -> cs v c + cl v c <= cs v c' \/ cs v c' + cl v c' <= cs v c).
    { intros c c' Lc Lc' N. destruct (Z.lt_total c c') as [X|[X|X]]; [left|congruence|right]; apply (ly_cols _ _ _ _ _ _ Ly); auto. }
    assert (HDw : forall s c, In c (without P D s) <-> In c (D s) /\ ~ In c P).
    { intros s c. unfold without. rewrite filter_In, negb_true_iff. rewrite memb_false. tauto. }
    (* new scores *)
    destruct (rescore_ok nr n na n0 v5 tag B pf deg (k + t) P (without P D)) with (w := w5)
      as (w6 & deg' & k' & fs5 & fl5 & f25 & f35 & f45 & m5 & fh5 & Bk & E7 & R6 & RC & L6 & HBk & Hf3).
    { exact NP. }
    { intros c Hc. pose proof (proj1 (PL c Hc)) as Lc. destruct (ly_col _ _ _ _ _ _ Ly c Lc). split; [exact (proj1 Lc)|]. split; [exact (proj2 Lc)|].
      split; [exact H|]. split; [exact H0|]. split; [exact (Tpos c Lc)|]. intros r Hr. unfold v5, crows in Hr. cbn [me cs cl] in Hr. rewrite Smc in Hr by auto.
      pose proof (en_row _ _ _ En c r Lc Hr) as Hrr. split; [exact Hrr|]. intros X. change (r2 v5 r) with (g2 r) in *. assert (S : survives nr g2 r) by (split; auto).
      pose proof (mark_of nr n na nnz n2 v D rt B pf k ms md tag p ag I P NP HP g2 Hg r c S Hc Hr).
      pose proof (others_nonneg nr n na nnz n2 v D rt B pf k ms md tag p I P r (proj1 (Sl r S))). lia. }
    { intros c c' Hc Hc' N. apply Apart; auto; now apply PL. }
    { lia. } { lia. } { exact Sg. } { exact L5. } { intros s c X. exact (proj2 (proj1 (HDw s c) X)). } { exact R5'. }
    rewrite E7. cbn [obind]. change (rs v5) with (rs v) in R6. change (rl v5) with (rl v) in R6. change (r1 v5) with (r1 v) in R6. change (r2 v5) with g2 in R6. change (c1 v5) with (c1 v) in R6.
    assert (Rk : k' = k + t + zsum (c1 v) (filter (gone v g2) P)).
    { rewrite (rc_k _ _ _ _ _ _ _ _ _ _ _ _ RC). rewrite (filter_ext_In _ _ P Gn). reflexivity. }
    assert (Rd : deg' = zsum (c1 v) P - zsum (c1 v) (filter (gone v g2) P)).
    { rewrite (rc_deg _ _ _ _ _ _ _ _ _ _ _ _ RC). rewrite (filter_ext_In _ _ P Gn), <- Ed'. reflexivity. }
    assert (Rin : forall c, In c P -> fl5 c = zlen (keep v g2 c) /\ seg m5 (cs v c) (fl5 c) = keep v g2 c).
    { intros c Hc. rewrite <- Kp by now apply PL. exact (rc_in _ _ _ _ _ _ _ _ _ _ _ _ RC c Hc). }
    assert (Rgone : forall c, In c P -> gone v g2 c = true -> fs5 c = -1 /\ k + t <= f25 c /\ f25 c + c1 v c <= k').
    { intros c Hc G. rewrite <- Gn in G by auto. exact (rc_gone _ _ _ _ _ _ _ _ _ _ _ _ RC c Hc G). }
    assert (Rstay : forall c, In c P -> gone v g2 c = false -> fs5 c = cs v c /\ f25 c = Z.min (zsum (fun r => g2 r - tag) (keep v g2 c)) n /\ seg m5 (fs5 c) (fl5 c) = keep v g2 c).
    { intros c Hc G. rewrite <- Gn in G by auto. destruct (rc_stay _ _ _ _ _ _ _ _ _ _ _ _ RC c Hc G) as (X & Y). change (cs v5 c) with (cs v c) in X. split; auto. split.
      - rewrite Y. unfold score_of. rewrite Kp by now apply PL. reflexivity.
      - rewrite X. now apply Rin. }
    assert (Rout : forall c, ~ In c P -> fs5 c = cs v c /\ f25 c = c2 v c).
    { intros c Hc. destruct (rc_out _ _ _ _ _ _ _ _ _ _ _ _ RC c Hc) as (X & _ & Y). split; [exact X|exact Y]. }
    assert (Rgap : forall c c', In c P -> In c' P -> gone v g2 c = true -> gone v g2 c' = true -> c <> c' -> f25 c + c1 v c <= f25 c' \/ f25 c' + c1 v c' <= f25 c).
    { intros c c' Hc Hc' G G' N. rewrite <- Gn in G, G' by auto. exact (rc_apart _ _ _ _ _ _ _ _ _ _ _ _ RC c c' Hc Hc' G G' N). }
    assert (Hm5 : forall i, (forall c, In c P -> ~ (cs v c <= i < cs v c + cl v c)) -> m5 i = m i) by exact (rc_mem _ _ _ _ _ _ _ _ _ _ _ _ RC).
    assert (Hm5n : forall i, 0 <= m i -> 0 <= m5 i) by exact (rc_nn _ _ _ _ _ _ _ _ _ _ _ _ RC).
    assert (Sg5 : seg m5 pf (zlen P) = P).
    { etransitivity; [|exact Sg]. apply seg_ext. intros i Hi. apply Hm5. intros c Hc. destruct (ly_col _ _ _ _ _ _ Ly c (proj1 (PL c Hc))). lia. }
    assert (KS : forall c, In c P -> zlen (keep v g2 c) < cl v c).
    { intros c Hc. exact (keep_shorter nr n na nnz n2 v D rt B pf k ms md tag p ag I Lp P HP g2 Hg c Hc). }
    assert (L5' : forall c, In c P -> 0 <= fs5 c <-> gone v g2 c = false).
    { intros c Hc. exact (live5 n v k tag p P HP g2 k' fl5 fs5 f25 m5 Rgone Rstay c Hc). }
    (* supercolumns *)
    destruct (detect_ok nr n na n0 P w6 _ (without P D) Bk pf R6) as (w7 & fs6 & f16 & f26 & f36 & f46 & fh6 & E8 & R7 & M & L7); cbn [c3 c4 he me cs cl] in *; auto; try lia.
    { intros x Hx. exact (proj1 (proj1 (PL x Hx))). }
    { intros x Hx X. apply L5' in X; auto. destruct (Rstay x Hx X) as (Y & _). destruct (Rin x Hx) as (Z & _). destruct (ly_col _ _ _ _ _ _ Ly x (proj1 (PL x Hx))).
      pose proof (KS x Hx). pose proof (zlen_nonneg (keep v g2 x)). destruct (PL x Hx) as ((W1 & W2) & _). split; [|rewrite <- Gn in X by auto; auto].
      unfold inside. cbn [cs cl]. rewrite Y, Z. split; [lia|]. split; [lia|]. split; [lia|]. split; [lia|auto]. }
    { intros s x Hx. destruct (HBk s x Hx) as (X & Y & Z). split; auto. split; auto. apply L5'; auto. rewrite <- Gn; auto. }
    { intros s c X. exact (proj2 (proj1 (HDw s c) X)). }
    rewrite E8. cbn [obind]. unfold up_detect in R7. cbn [rs rl r1 r2 cs cl c1 c2 c3 c4 me he] in R7, M.
    destruct (set_cs _ _ _ w7 _ p dead_principal R7) as (w8 & E9 & R8); [lia|]. rewrite E9. cbn [obind]. vsimpl R8. change dead_principal with (-1) in R8.
    (* the marks *)
    destruct (clear_mark_ok nr n na nr0 w8 _ (tag + Z.max md deg + 1) (2 ^ 31 - 1 - n) R8) as (w9 & g3 & tag' & E10 & R9 & Tt & Mk). rewrite E10. cbn [obind]. vsimpl R9. cbn [r2] in Mk.
    assert (Alive : forall r, 0 <= r < nr -> (0 <= g3 r <-> 0 <= g2 r)).
    { intros r Hr. destruct Mk as [(_ & -> & _)|(_ & F)]; [tauto|]. rewrite F by auto. unfold alive. destruct (Z.leb_spec 0 (g2 r)); lia. }
    assert (Below : forall r, 0 <= r < nr -> g3 r < tag').
    { intros r Hr. pose proof (in_tag _ _ _ _ _ _ _ _ _ _ _ _ _ _ _ I). destruct Mk as [(-> & -> & _)|(-> & F)].
      - pose proof (in_mark _ _ _ _ _ _ _ _ _ _ _ _ _ _ _ I r Hr). assert (0 <= deg).
        { rewrite Ed'. apply zsum_nonneg. intros x Hx. pose proof (Tpos x (proj1 (PL x Hx))). lia. }
        rewrite Hg by auto. destruct (memb r (crows v p)); [lia|]. destruct (Z.ltb_spec (r2 v r) 0) as [X|X]; [lia|]. destruct (Z.eqb_spec (ht v P r) 0); [lia|].
        destruct ((r1 v r =? ht v P r) && ag); [lia|]. pose proof (in_deg _ _ _ _ _ _ _ _ _ _ _ _ _ _ _ I r (conj Hr X)) as (_ & Y).
        assert (0 <= ht v P r); [|lia]. apply zsum_nonneg. intros x Hx. apply filter_In in Hx. pose proof (Tpos x (proj1 (PL x (proj1 Hx)))). lia.
      - rewrite F by auto. unfold alive. destruct (Z.leb_spec 0 (g2 r)); lia. }
    set (v7 := View (rs v) (rl v) (r1 v) g3 (fupd fs6 p (-1)) fl5 f16 f26 f36 f46 m5 fh6) in *.
    (* the final scores *)
    assert (Live7 : forall c, In c P -> 0 <= cs v7 c -> live7 n p fs6 c).
    { intros c Hc X. split; [exact (proj1 (proj1 (PL c Hc)))|exact X]. }
    assert (In7 : forall c, In c P -> live7 n p fs6 c -> gone v g2 c = false /\ fs6 c = cs v c).
    { intros c Hc X. edestruct (live7_in n v k tag p P HP g2 k' fl5 fs5 f25 m5 fs6 f16 f26 Rgone Rstay Rout M c Hc X) as (X1 & X2 & _). auto. }
    assert (St7 : forall c, stays v7 P c -> In c P /\ live7 n p fs6 c /\ cs v7 c = cs v c /\ cl v7 c = zlen (keep v g2 c)).
    { intros c (Hc & X). pose proof (Live7 c Hc X) as X7. split; auto. split; auto. destruct (In7 c Hc X7) as (_ & Y). split; [|now apply Rin].
      unfold v7. cbn [cs]. rewrite fupd_other; auto. intros ->. contradiction. }
    destruct (finish_ok nr n na v7 B pf k' pr deg' ms P (without P D)) with (w := w9)
      as (w10 & fl9 & f29 & f39 & f49 & m9 & fh9 & D9 & ms9 & E11 & R10 & FN & L9).
    { exact NP. }
    { intros c Hc. exact (proj1 (proj1 (PL c Hc))). }
    { intros X. apply (proj1 (en_row _ _ _ En p pr Lp (Hpr X))). }
    { intros c X. destruct (St7 c X) as (Hc & X7 & Y & Z). rewrite Y, Z. pose proof (zlen_nonneg (keep v g2 c)). pose proof (KS c Hc). destruct (ly_col _ _ _ _ _ _ Ly c (proj1 (PL c Hc))).
      split; [lia|]. split; [lia|].
      exact (final_range nr n na nnz n2 v D rt B pf k ms md tag p ag I Lp Ek P NP HP g2 Hg k' deg' fl5 fs5 f25 m5 fs6 f16 f26 Rk Rd Rgone Rstay Rout M c Hc X7). }
    { intros c c' X X' N. destruct (St7 c X) as (Hc & X7 & Y & Z), (St7 c' X') as (Hc' & X7' & Y' & Z'). rewrite Y, Z, Y', Z'.
      pose proof (KS c Hc). pose proof (KS c' Hc'). destruct (Apart c c'); auto; try lia; now apply PL. }
    { lia. } { lia. } { exact Sg5. } { exact L7. } { intros s c X. exact (proj2 (proj1 (HDw s c) X)). } { exact R9. }
    rewrite E11. cbn [obind].
    change (rs v7) with (rs v) in R10. change (rl v7) with (rl v) in R10. change (r1 v7) with (r1 v) in R10. change (r2 v7) with g3 in R10. change (c1 v7) with f16 in R10.
    change (cs v7) with (fs7 p fs6) in *. change (alivec v7) with (lives (fs7 p fs6)) in *.
    rewrite Z.add_simpl_l.
    set (Q := filter (lives (fs7 p fs6)) P) in *.
    assert (Hd0 : 0 < deg' -> P <> []). { intros X ->. cbn in Rd. lia. }
    assert (LX : exists w11 gs gl gd g4,
      (if 0 <? deg' then set_row w10 pr (fun _ => CRow pf (zlen Q) deg' 0) else Done w10) = Done w11 /\
      rep w11 (View gs gl gd g4 (fs7 p fs6) fl9 f16 f29 f39 f49 m9 fh9) /\
      (forall r, ~ (0 < deg' /\ r = pr) -> gs r = rs v r /\ gl r = rl v r /\ gd r = r1 v r /\ g4 r = g3 r) /\
      (0 < deg' -> gs pr = pf /\ gl pr = zlen Q /\ gd pr = deg' /\ g4 pr = 0)).
    { destruct (Z.ltb_spec 0 deg') as [Hd|Hd].
      - destruct (set_row_ok nr n na w10 _ pr (fun _ => CRow pf (zlen Q) deg' 0)
          (View (fupd (rs v) pr pf) (fupd (rl v) pr (zlen Q)) (fupd (r1 v) pr deg') (fupd g3 pr 0) (fs7 p fs6) fl9 f16 f29 f39 f49 m9 fh9) R10) as (w11 & E & R11).
        + pose proof (en_row _ _ _ En p pr Lp (Hpr (Hd0 Hd))). lia.
        + intros j. unfold vrow. cbn [rs rl r1 r2]. unfold fupd. destruct (pr =? j); reflexivity.
        + reflexivity.
        + reflexivity.
        + reflexivity.
        + exists w11. do 4 eexists. split; [exact E|]. split; [exact R11|]. split.
          * intros r Hr. assert (Npr : pr <> r) by (intros E'; apply Hr; split; [exact Hd|symmetry; exact E']). rewrite !fupd_other by exact Npr. repeat split; reflexivity.
          * intros _. rewrite !fupd_same. repeat split; reflexivity.
      - exists w10, (rs v), (rl v), (r1 v), g3. split; [reflexivity|]. split; [exact R10|]. split; [auto|]. lia. }
    destruct LX as (w11 & gs & gl & gd & g4 & E12 & R11 & G1 & G2). rewrite E12. cbn [obind].
    set (v9 := View gs gl gd g4 (fs7 p fs6) fl9 f16 f29 f39 f49 m9 fh9) in *.
    assert (Ps : forall r, survives nr g2 r -> ~ (0 < deg' /\ r = pr)).
    { intros r S (Hd & ->). destruct (Sl pr S) as (_ & X). apply X, Hpr, Hd0, Hd. }
    (* the memory after the round *)
    assert (Mem : forall i, 0 <= i < pf -> (forall c, In c P -> ~ (cs v c <= i < cs v c + cl v c)) -> m9 i = me v i).
    { intros i Hi X. rewrite (fn_mem _ _ _ _ _ _ _ _ _ _ _ _ _ _ FN).
      - change (me v7) with m5. rewrite Hm5 by auto. apply Hm. lia.
      - lia.
      - intros c Hc Y. destruct (St7 c (conj Hc Y)) as (_ & _ & Z1 & Z2). change (cs v7) with (fs7 p fs6) in *. rewrite Z1, Z2.
        specialize (X c Hc). pose proof (KS c Hc). pose proof (zlen_nonneg (keep v g2 c)). lia. }
    exists (Search w11 k' ms9 (Z.max md deg) (pf + zlen P) tag' ng), v9, D9.
    cbn [sr_work sr_pfree sr_k sr_min_score sr_max_deg sr_tag_mark].
    assert (Fin : exists rt9, inv none v9 D9 rt9 B (pf + zlen P) k' ms9 (Z.max md deg) tag').
    { apply (round_inv nr n na nnz n2 v D rt B pf k ms md tag p ag I Lp Ek P NP HP g2 Hg k' deg' fl5 fs5 f25 m5 fs6 f16 f26 Rk Rd Rgone Rstay Rout Rgap M v9 D9 ms9 (Z.max md deg) tag' pr).
      - exact Hna.
      - reflexivity.
      - reflexivity.
      - intros c Hc X. destruct (fn_in _ _ _ _ _ _ _ _ _ _ _ _ _ _ FN c Hc (proj2 X)) as (Y1 & Y2 & Y3). destruct (In7 c Hc X) as (Z1 & Z2).
        destruct (Rin c Hc) as (W1 & W2). destruct (St7 c (conj Hc (proj2 X))) as (_ & _ & V1 & V2).
        change (cl v9 c) with (fl9 c). change (c2 v9 c) with (f29 c). rewrite Y1. rewrite V2. split; [reflexivity|]. split; [exact Y2|].
        unfold crows. change (me v9) with m9. change (cl v9 c) with (fl9 c). change (cs v9 c) with (cs v7 c). rewrite Y1. etransitivity; [exact Y3|]. f_equal.
        unfold crows. change (me v7) with m5. change (cl v7 c) with (fl5 c). change (cs v7 c) with (fs7 p fs6 c). rewrite V1. exact W2.
      - intros c Lc Nc Hc. destruct (fn_out _ _ _ _ _ _ _ _ _ _ _ _ _ _ FN c) as (Y1 & Y2); [intros (W & _); contradiction|].
        destruct (merges_out _ _ _ _ _ _ _ _ _ M c Hc) as (O1 & O2 & O3). destruct (Rout c Hc) as (O4 & O5).
        destruct (rc_out _ _ _ _ _ _ _ _ _ _ _ _ RC c Hc) as (_ & O6 & _). change (cl v5 c) with (cl v c) in O6.
        change (cl v7 c) with (fl5 c) in Y1. change (c2 v7 c) with (f26 c) in Y2.
        change (cl v9 c) with (fl9 c). change (c2 v9 c) with (f29 c). split; [congruence|]. split; [congruence|].
        unfold crows. change (me v9) with m9. change (cl v9 c) with (fl9 c). change (cs v9 c) with (fs7 p fs6 c). unfold fs7. rewrite fupd_other by auto.
        rewrite Y1, O6, O1, O4. apply seg_ext. intros i Hi. destruct (ly_col _ _ _ _ _ _ Ly c Lc). pose proof (proj2 Lc). apply Mem; [lia|].
        intros c' Hc'. assert (N : c <> c') by (intros ->; contradiction). destruct (Apart c c' Lc (proj1 (PL c' Hc')) N); lia.
      - intros c Hc X. change (c2 v9 c) with (f29 c). destruct (fn_out _ _ _ _ _ _ _ _ _ _ _ _ _ _ FN c) as (_ & Y); [|exact Y]. intros (_ & Z). change (cs v7 c) with (fs7 p fs6 c) in Z. lia.
      - intros r S. destruct (G1 r (Ps r S)) as (Y1 & Y2 & Y3 & Y4). change (rs v9 r) with (gs r). change (rl v9 r) with (gl r). change (r1 v9 r) with (gd r).
        split; auto. split; auto. split; auto. unfold rcols. change (me v9) with m9. change (rs v9 r) with (gs r). change (rl v9 r) with (gl r). rewrite Y1, Y2.
        apply seg_ext. intros i Hi. destruct (ly_row _ _ _ _ _ _ Ly r (proj1 (Sl r S))). apply Mem; [lia|]. intros c Hc. destruct (ly_col _ _ _ _ _ _ Ly c (proj1 (PL c Hc))). lia.
      - intros Hd. destruct (G2 Hd) as (Y1 & Y2 & Y3 & Y4). split; [apply Hpr, Hd0, Hd|]. change (rs v9 pr) with (gs pr). change (rl v9 pr) with (gl pr). change (r1 v9 pr) with (gd pr).
        split; auto. split; auto. split; auto. unfold rcols. change (me v9) with m9. change (rs v9 pr) with (gs pr). change (rl v9 pr) with (gl pr). rewrite Y1, Y2.
        exact (fn_row _ _ _ _ _ _ _ _ _ _ _ _ _ _ FN).
      - intros r. unfold Proofs_Collect.liver. change (r2 v9 r) with (g4 r). split.
        + intros (Hr & X). destruct (Z_lt_dec 0 deg') as [Hd|Hd].
          * destruct (Z.eq_dec r pr) as [->|N]; [auto|]. left. destruct (G1 r) as (_ & _ & _ & Y); [intros (W1 & W2); contradiction|]. rewrite Y in X. split; [exact Hr|]. exact (proj1 (Alive r Hr) X).
          * left. destruct (G1 r) as (_ & _ & _ & Y); [intros (W1 & W2); contradiction|]. rewrite Y in X. split; [exact Hr|]. exact (proj1 (Alive r Hr) X).
        + intros [S|(Hd & ->)].
          * destruct (G1 r (Ps r S)) as (_ & _ & _ & ->). split; [exact (proj1 S)|]. apply Alive; [exact (proj1 S)|exact (proj2 S)].
          * destruct (G2 Hd) as (_ & _ & _ & ->). split; [exact (en_row _ _ _ En p pr Lp (Hpr (Hd0 Hd)))|lia].
      - exact Tt.
      - intros r Hr. change (r2 v9 r) with (g4 r). destruct (Z_lt_dec 0 deg') as [Hd|Hd].
        + destruct (Z.eq_dec r pr) as [->|N]; [destruct (G2 Hd) as (_ & _ & _ & ->); lia|]. destruct (G1 r) as (_ & _ & _ & ->); [intros (W1 & W2); contradiction|]. exact (Below r Hr).
        + destruct (G1 r) as (_ & _ & _ & ->); [intros (W1 & W2); contradiction|]. exact (Below r Hr).
      - lia.
      - intros i Hi. change (me v9 i) with (m9 i). apply (fn_nn _ _ _ _ _ _ _ _ _ _ _ _ _ _ FN). apply Hm5n.
        destruct (Z_lt_dec i pf) as [X|X]; [rewrite Hm by lia; apply (ly_mem _ _ _ _ _ _ Ly); lia|].
        assert (Y : In (m i) P). { rewrite <- Sg. apply In_seg. exists i. split; [lia|reflexivity]. } apply (proj1 (proj1 (PL _ Y))).
      - exact L9.
      - intros s x. rewrite (fn_lists _ _ _ _ _ _ _ _ _ _ _ _ _ _ FN). rewrite HDw. change (cs v7 x) with (fs7 p fs6 x). split.
        + intros [X|(X1 & X2 & X3)]; [auto|]. right. split; auto.
        + intros [X|(X1 & X2 & X3)]; [auto|]. right. split; auto. split; [exact (proj2 X2)|exact X3].
      - destruct (fn_min _ _ _ _ _ _ _ _ _ _ _ _ _ _ FN) as (X1 & X2). split.
        + split; auto. pose proof (in_ms _ _ _ _ _ _ _ _ _ _ _ _ _ _ _ I). destruct (fn_min_in _ _ _ _ _ _ _ _ _ _ _ _ _ _ FN) as [->|(c & Hc & Y & ->)]; [lia|].
          apply (final_range nr n na nnz n2 v D rt B pf k ms md tag p ag I Lp Ek P NP HP g2 Hg k' deg' fl5 fs5 f25 m5 fs6 f16 f26 Rk Rd Rgone Rstay Rout M c Hc (Live7 c Hc Y)).
        + intros c Hc X. apply X2; auto. exact (proj2 X). }
    destruct Fin as (rt9 & Fin). exists rt9, B. split; [reflexivity|]. split; [exact R11|]. split; [exact Fin|].
    rewrite Rk. assert (0 <= zsum (c1 v) (filter (gone v g2) P)); [|lia].
    apply zsum_nonneg. intros x Hx. apply filter_In in Hx. pose proof (Tpos x (proj1 (PL x (proj1 Hx)))). lia.
  Qed.
End Pivot.
