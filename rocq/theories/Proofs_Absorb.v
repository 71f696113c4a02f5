(** Merging indistinguishable columns (colamd.rs 1139-1221) *)
From Coq Require Import List Arith ZArith Lia Bool Permutation.
From Verif Require Import Outcome Lib ModelColamd Spec_Colamd Proofs_Zlist Proofs_Order Proofs_View Proofs_DegreeLists.
Import ListNotations.
Local Open Scope Z_scope.

(** Any number of columns of [P] absorbed by others of [P] with the same entries:
    what becomes of the starts, the first and the second shared fields *)
Inductive merges (P : list Z) (m len s0 t0 u0 : Z -> Z) : (Z -> Z) -> (Z -> Z) -> (Z -> Z) -> Prop :=
| mg_none : merges P m len s0 t0 u0 s0 t0 u0
| mg_one fs f1 f2 s x : merges P m len s0 t0 u0 fs f1 f2 -> s <> x -> In s P -> In x P -> 0 <= fs s -> 0 <= fs x ->
    len x = len s -> f2 x = f2 s -> seg m (fs x) (len x) = seg m (fs s) (len s) ->
    merges P m len s0 t0 u0 (fupd fs x (-2)) (fupd (fupd f1 s (f1 s + f1 x)) x s) (fupd f2 x (-1)).
Lemma merges_trans P m len s0 t0 u0 s1 t1 u1 s2 t2 u2 :
  merges P m len s0 t0 u0 s1 t1 u1 -> merges P m len s1 t1 u1 s2 t2 u2 -> merges P m len s0 t0 u0 s2 t2 u2.
Proof. intros H. induction 1; auto. eapply mg_one; eauto. Qed.
Lemma merges_out P m len s0 t0 u0 s t u : merges P m len s0 t0 u0 s t u ->
  forall y, ~ In y P -> s y = s0 y /\ t y = t0 y /\ u y = u0 y.
Proof.
  induction 1 as [|fs f1 f2 s x H IH N Hs Hx]; intros y Hy; auto.
  assert (x <> y) by congruence. assert (s <> y) by congruence. rewrite !fupd_other by auto. auto.
Qed.
Lemma merges_start P m len s0 t0 u0 s t u : merges P m len s0 t0 u0 s t u ->
  forall y, (s y = s0 y /\ u y = u0 y) \/ (s y = -2 /\ 0 <= s0 y).
Proof.
  induction 1 as [|fs f1 f2 s x H IH N Hs Hx Ls Lx]; intros y; auto.
  destruct (Z.eq_dec x y) as [<-|Ny].
  - right. rewrite !fupd_same. split; auto. destruct (IH x) as [(E & _)|(E & _)]; lia.
  - rewrite !fupd_other by auto. auto.
Qed.

Section Absorb.
  Variables nr n na : Z.
  Hypothesis n0 : 0 <= n.
  Notation rep := (rep nr n na).
  Variable P : list Z.

  Definition up_merge v fs f1 f2 f4 := View (rs v) (rl v) (r1 v) (r2 v) fs (cl v) f1 f2 (c3 v) f4 (me v) (he v).

  (** Lines 1185-1198 *)
  Lemma same_ok w v : rep w v -> forall k a b, 0 <= a -> a + Z.of_nat k <= na -> 0 <= b -> b + Z.of_nat k <= na ->
    exists r, same_entries w k a b = Done r /\ (r = true -> seg (me v) a (Z.of_nat k) = seg (me v) b (Z.of_nat k)).
  Proof.
    intros R. induction k as [|k IH]; intros a b H1 H2 H3 H4; cbn [same_entries].
    - exists true. split; auto. intros _. now rewrite !seg_nil by lia.
    - rewrite (mem_at_ok _ _ _ _ _ _ R) by lia. cbn [obind]. rewrite (mem_at_ok _ _ _ _ _ _ R) by lia. cbn [obind].
      destruct (Z.eqb_spec (me v a) (me v b)) as [E|N].
      + destruct (IH (a + 1) (b + 1)) as (r & Er & Hr); try lia. exists r. split; auto. intros Q.
        rewrite (seg_cons _ a), (seg_cons _ b) by lia. rewrite E. f_equal.
        replace (Z.of_nat (S k) - 1) with (Z.of_nat k) by lia. auto.
      + exists false. split; auto. discriminate.
  Qed.

  Definition inside v x := 0 <= x < n /\ 0 <= cs v x /\ 0 <= cl v x /\ cs v x + cl v x <= na /\ In x P.

  (** Lines 1178-1212 *)
  Lemma absorb_ok s : forall fuel rest w v mid, rep w v -> (length rest <= fuel)%nat ->
    chained (c4 v) (s :: mid ++ rest) -> NoDup (s :: mid ++ rest) -> (forall x, In x (s :: mid ++ rest) -> inside v x) ->
    exists w' fs f1 f2 f4 mid', absorb fuel w s (last mid s) (hd (-1) rest) = Done w' /\
      rep w' (up_merge v fs f1 f2 f4) /\ merges P (me v) (cl v) (cs v) (c1 v) (c2 v) fs f1 f2 /\
      chained f4 (s :: mid') /\ NoDup (s :: mid') /\ incl mid' (mid ++ rest) /\ (length mid' <= length (mid ++ rest))%nat /\
      (forall x, In x (s :: mid') -> fs x = cs v x) /\
      (forall x, ~ In x (s :: mid ++ rest) -> f4 x = c4 v x /\ fs x = cs v x).
  Proof.
    induction fuel as [|fuel IH]; intros rest w v mid R F Ch Nd Li.
    - assert (rest = []) as -> by (destruct rest; [auto|cbn in F; lia]). cbn. exists w, (cs v), (c1 v), (c2 v), (c4 v), mid.
      split; [reflexivity|]. rewrite app_nil_r in *. split; [destruct v; exact R|]. split; [constructor|]. split; [auto|]. split; [auto|].
      split; [apply incl_refl|]. auto.
    - destruct rest as [|c rest].
      { cbn [absorb hd]. unfold empty_link. change (-1 =? -1) with true. cbv iota. exists w, (cs v), (c1 v), (c2 v), (c4 v), mid.
        split; [reflexivity|]. rewrite app_nil_r in *. split; [destruct v; exact R|]. split; [constructor|]. split; [auto|]. split; [auto|].
        split; [apply incl_refl|]. auto. }
      cbn [absorb hd]. unfold empty_link.
      destruct (Li s (or_introl eq_refl)) as (Hs & Ss & Ls & Ms & Ps).
      assert (Ic : In c (s :: mid ++ c :: rest)) by (right; apply in_app_iff; right; now left).
      destruct (Li c Ic) as (Hc & Sc & Lc & Mc & Pc).
      destruct (Z.eqb_spec c (-1)); [lia|].
      rewrite (col_at_ok _ _ _ _ _ _ R) by lia. cbn [obind]. rewrite (col_at_ok _ _ _ _ _ _ R) by lia. cbn [obind].
      unfold vcol. cbn [cl_start cl_length cl_shared1 cl_shared2 cl_shared4].
      assert (Nsc : s <> c). { intros ->. inversion Nd as [|? ? X]. apply X. apply in_app_iff. right. now left. }
      assert (C4 : c4 v c = hd (-1) rest).
      { clear - Ch. change (s :: mid ++ c :: rest) with ((s :: mid) ++ c :: rest) in Ch.
        induction (s :: mid) as [|y l IH]; cbn in Ch; [tauto|]. apply IH. tauto. }
      assert (Q : exists b, (if negb (cl v c =? cl v s) || negb (c2 v c =? c2 v s) then Done false
                             else same_entries w (Z.to_nat (cl v s)) (cs v s) (cs v c)) = Done b /\
        (b = true -> cl v c = cl v s /\ c2 v c = c2 v s /\ seg (me v) (cs v c) (cl v c) = seg (me v) (cs v s) (cl v s))).
      { destruct (Z.eqb_spec (cl v c) (cl v s)) as [E1|E1]; cbn [negb orb]; [|exists false; split; [auto|discriminate]].
        destruct (Z.eqb_spec (c2 v c) (c2 v s)) as [E2|E2]; cbn [negb]; [|exists false; split; [auto|discriminate]].
        destruct (same_ok w v R (Z.to_nat (cl v s)) (cs v s) (cs v c)) as (b & Eb & Hb); try lia.
        exists b. split; auto. intros Q. specialize (Hb Q). rewrite Z2Nat.id in Hb by lia. rewrite E1. auto. }
      destruct Q as (b & Eb & Hb). rewrite Eb. cbn [obind]. destruct b.
      + destruct (Hb eq_refl) as (E1 & E2 & E3). clear Hb.
        destruct (set_c1 _ _ _ w v s (c1 v s + c1 v c) R) as (w1 & Ew1 & R1); [lia|]. rewrite Ew1. cbn [obind].
        destruct (set_col_ok _ _ _ w1 _ c (fun x => cl_set_shared2 (-1) (cl_set_start dead_non_principal (cl_set_shared1 s x)))
          (up_merge v (fupd (cs v) c (-2)) (fupd (fupd (c1 v) s (c1 v s + c1 v c)) c s) (fupd (c2 v) c (-1)) (c4 v)) R1) as (w2 & Ew2 & R2).
        { lia. } { intros j. unfold vcol. cbn. unfold fupd. destruct (Z.eqb_spec c j); subst; reflexivity. }
        { reflexivity. } { reflexivity. } { reflexivity. }
        rewrite Ew2. cbn [obind].
        assert (Hp : In (last mid s) (s :: mid)).
        { destruct mid as [|y mid'] using rev_ind; [now left|]. rewrite last_last. right. apply in_app_iff. right. now left. }
        assert (Hp' : In (last mid s) (s :: mid ++ c :: rest)).
        { destruct Hp as [Hp|Hp]; [now left|]. right. apply in_app_iff. now left. }
        destruct (Li _ Hp') as (Hpr & _).
        destruct (set_c4 _ _ _ w2 _ (last mid s) (c4 v c) R2) as (w3 & Ew3 & R3); [lia|]. rewrite Ew3. cbn [obind].
        unfold up_merge in R3. vsimpl R3.
        assert (Nd' : NoDup (s :: mid ++ rest)). { change (s :: mid ++ rest) with ((s :: mid) ++ rest). eapply NoDup_remove_1. exact Nd. }
        assert (Nc : ~ In c (s :: mid ++ rest)). { change (s :: mid ++ rest) with ((s :: mid) ++ rest). eapply NoDup_remove_2. exact Nd. }
        rewrite C4 in R3. rewrite C4.
        match type of R3 with Proofs_View.rep _ _ _ _ ?v' => set (v3 := v') in R3 end.
        destruct (IH rest w3 v3 mid R3) as (w' & fs & f1 & f2 & f4 & mid' & E & R' & M & Ch' & N' & I' & Le & St & Ou).
        * cbn in F. lia.
        * unfold v3. cbn [c4]. clear - Ch Nd' . change (s :: mid ++ rest) with ((s :: mid) ++ rest) in *.
          change (s :: mid ++ c :: rest) with ((s :: mid) ++ c :: rest) in Ch.
          assert (E : last mid s = last (s :: mid) s).
          { destruct mid as [|y mid] using rev_ind; [reflexivity|]. rewrite last_last. change (s :: mid ++ [y]) with ((s :: mid) ++ [y]). now rewrite last_last. }
          rewrite E. clear E. destruct (@exists_last _ (s :: mid)) as (l & q & El); [discriminate|]. rewrite El in *. rewrite last_last. clear El.
          rewrite <- app_assoc in *. cbn [app] in *.
          induction l as [|y l IH]; cbn [app chained hd] in *.
          -- rewrite fupd_same. split; [auto|]. destruct Ch as (_ & _ & Ch). eapply chained_ext; [|exact Ch].
             intros x Hx. apply fupd_other. intros ->. inversion Nd'; auto.
          -- assert (Nyq : y <> q). { intros ->. inversion Nd' as [|? ? X]. apply X. apply in_app_iff. right. now left. }
             rewrite fupd_other by auto. destruct Ch as (Ch1 & Ch2). rewrite hd_app in *. cbn [hd] in *. split; [auto|].
             apply IH; auto. now inversion Nd'.
        * exact Nd'.
        * intros x Hx. assert (c <> x) by (intros ->; contradiction). unfold inside, v3. cbn [cs cl]. rewrite fupd_other by auto.
          apply Li. destruct Hx as [Hx|Hx]; [now left|]. right. apply in_app_iff in Hx. apply in_app_iff. cbn. tauto.
        * rewrite E. unfold v3, up_merge in *. cbn [rs rl r1 r2 he c1 c2 c3 c4 cs cl me] in *. exists w', fs, f1, f2, f4, mid'. split; [reflexivity|]. split; [exact R'|].
          split. { eapply merges_trans; [|exact M]. eapply mg_one; eauto. constructor. }
          split; [exact Ch'|]. split; [exact N'|].
          split. { intros x Hx. specialize (I' x Hx). apply in_app_iff in I'. apply in_app_iff. cbn. tauto. }
          split. { rewrite app_length in *. cbn. lia. }
          split.
          { intros x Hx. rewrite St by exact Hx. apply fupd_other. intros ->. apply Nc. destruct Hx as [Hx|Hx]; [now left|]. right. auto. }
          intros x Hx. destruct (Ou x) as (-> & ->).
          { intros Hx'. apply Hx. destruct Hx' as [Hx'|Hx']; [now left|]. right. apply in_app_iff in Hx'. apply in_app_iff. cbn. tauto. }
          rewrite !fupd_other; auto; intros X; apply Hx; rewrite <- X; auto.
      + rewrite C4. destruct (IH rest w v (mid ++ [c]) R) as (w' & fs & f1 & f2 & f4 & mid' & E & R' & M & Ch' & N' & I' & Le & St & Ou).
        * cbn in F. lia.
        * rewrite <- app_assoc. exact Ch.
        * rewrite <- app_assoc. exact Nd.
        * rewrite <- app_assoc. exact Li.
        * rewrite last_last in E. rewrite E. rewrite <- app_assoc in *. exists w', fs, f1, f2, f4, mid'. repeat (split; [auto; fail|]). auto.
  Qed.

  (** Lines 1174-1214 *)
  Lemma absorb_bucket_ok : forall fuel b w v, rep w v -> (length b <= fuel)%nat -> chained (c4 v) b -> NoDup b ->
    (forall x, In x b -> inside v x) ->
    exists w' fs f1 f2 f4, absorb_bucket fuel w (hd (-1) b) = Done w' /\
      rep w' (up_merge v fs f1 f2 f4) /\ merges P (me v) (cl v) (cs v) (c1 v) (c2 v) fs f1 f2 /\
      (forall x, ~ In x b -> f4 x = c4 v x /\ fs x = cs v x).
  Proof.
    induction fuel as [|fuel IH]; intros b w v R F Ch Nd Li.
    - assert (b = []) as -> by (destruct b; [auto|cbn in F; lia]). cbn. exists w, (cs v), (c1 v), (c2 v), (c4 v). split; [reflexivity|].
      split; [destruct v; exact R|]. split; [constructor|]. auto.
    - destruct b as [|s b].
      { cbn [absorb_bucket hd]. unfold empty_link. change (-1 =? -1) with true. cbv iota. exists w, (cs v), (c1 v), (c2 v), (c4 v).
        split; [reflexivity|]. split; [destruct v; exact R|]. split; [constructor|]. auto. }
      cbn [absorb_bucket hd]. unfold empty_link. destruct (Li s (or_introl eq_refl)) as (Hs & _).
      destruct (Z.eqb_spec s (-1)); [lia|]. rewrite (col_at_ok _ _ _ _ _ _ R) by lia. cbn [obind vcol cl_shared4].
      pose proof Ch as (E4 & _). rewrite E4.
      destruct (absorb_ok s (S fuel) b w v [] R) as (w1 & fs & f1 & f2 & f4 & mid & E & R1 & M & Ch' & N' & I' & Le & St & Ou); auto.
      { cbn in F. lia. }
      cbn [last app] in *. rewrite E. cbn [obind]. rewrite (col_at_ok _ _ _ _ _ _ R1) by lia. cbn [obind vcol up_merge cl_shared4 c4].
      pose proof Ch' as (E4' & Ch''). rewrite E4'.
      destruct (IH mid w1 _ R1) as (w2 & gs & g1 & g2 & g4 & E2 & R2 & M2 & O2).
      + cbn in F. lia.
      + exact Ch''.
      + now inversion N'.
      + intros x Hx. unfold inside, up_merge. cbn [cs cl]. rewrite St by now right. apply Li. right. auto.
      + rewrite E2. unfold up_merge in *. cbn [rs rl r1 r2 cs cl c1 c2 c3 c4 me he] in *. exists w2. do 4 eexists.
        split; [reflexivity|]. split; [exact R2|]. split; [eapply merges_trans; eauto|].
        intros x Hx. destruct (O2 x) as (-> & ->). { intros Hx'. apply Hx. right. auto. } auto.
  Qed.

  Definition up_detect v fs f1 f2 f3 f4 fh := View (rs v) (rl v) (r1 v) (r2 v) fs (cl v) f1 f2 f3 f4 (me v) fh.

  (** Lines 1139-1221: the buckets are emptied and columns of [P] are merged. *)
  Lemma detect_ok w v D B a : rep w v -> lists n (c3 v) (c4 v) (he v) D B ->
    0 <= a -> a + zlen P <= na -> seg (me v) a (zlen P) = P -> NoDup P ->
    (forall x, In x P -> 0 <= x < n) ->
    (forall x, In x P -> 0 <= cs v x -> inside v x /\ 0 <= c3 v x <= n) ->
    (forall t x, In x (B t) -> c3 v x = t /\ In x P /\ 0 <= cs v x) -> (forall t x, In x (D t) -> ~ In x P) ->
    exists w' fs f1 f2 f3 f4 fh, detect_super_cols w a (zlen P) = Done w' /\
      rep w' (up_detect v fs f1 f2 f3 f4 fh) /\ merges P (me v) (cl v) (cs v) (c1 v) (c2 v) fs f1 f2 /\
      lists n f3 f4 fh D nowhere.
  Proof.
    intros R L Ha Hp Es Np Hr Hi HB HD. unfold detect_super_cols.
    pose (Q := fun pre w' => exists fs f1 f2 f3 f4 fh B', rep w' (up_detect v fs f1 f2 f3 f4 fh) /\
      merges P (me v) (cl v) (cs v) (c1 v) (c2 v) fs f1 f2 /\ lists n f3 f4 fh D B' /\
      (forall t x, In x (B' t) -> In x (B t) /\ 0 <= fs x) /\ (forall x, In x P -> f3 x = c3 v x) /\
      (forall t x, In x pre -> ~ In x (B' t))).
    destruct (seg_loop Q detect_column (me v) a (zlen P)) with (st := w) as (w' & E & H).
    - apply zlen_nonneg.
    - intros i pre post st Hi0 Ei Lp (fs & f1 & f2 & f3 & f4 & fh & B' & R' & M & L' & HB' & H3 & Hpre).
      set (col := me v i) in *. rewrite Es in Ei.
      assert (Pc : In col P) by (rewrite Ei; apply in_app_iff; right; now left).
      unfold detect_column. rewrite (mem_at_ok _ _ _ _ _ _ R') by (unfold up_detect; cbn [me]; lia). cbn [obind up_detect me]. fold col.
      pose proof (Hr col Pc) as Hc. rewrite (col_at_ok _ _ _ _ _ _ R') by lia. cbn [obind vcol up_detect cl_start cs cl_shared3 c3].
      unfold alive. destruct (Z.leb_spec 0 (fs col)) as [La|Da]; cbn [negb].
      2:{ exists st. split; auto. exists fs, f1, f2, f3, f4, fh, B'. split; [auto|]. split; [auto|]. split; [auto|]. split; [auto|]. split; [auto|].
          intros t x Hx. apply in_app_iff in Hx. destruct Hx as [Hx|[<-|[]]]; auto. intros Hx. apply HB' in Hx. lia. }
      assert (L0 : fs col = cs v col) by (destruct (merges_start _ _ _ _ _ _ _ _ _ M col) as [(X & _)|(X & _)]; lia).
      rewrite L0 in La. destruct (Hi col Pc La) as (_ & Hh). rewrite H3 by auto. set (h := c3 v col) in *.
      rewrite (head_at_ok _ _ _ _ _ _ R') by lia. cbn [obind up_detect he].
      pose proof (ls_head _ _ _ _ _ _ L' h Hh) as Eh. pose proof (ls_linked _ _ _ _ _ _ L' h Hh) as Hl.
      pose proof (hd_range _ n0 _ (ls_B _ _ _ _ _ _ L' h)) as Hb.
      assert (F : exists b, (if empty_link <? fh h then let! hc := col_at st (fh h) in Done (cl_shared3 hc) else Done (- (fh h + 2))) = Done b /\ b = hd (-1) (B' h)).
      { unfold empty_link. destruct (D h) as [|d l] eqn:ED.
        - rewrite Eh. destruct (Z.ltb_spec (-1) (- (hd (-1) (B' h) + 2))); [lia|]. eexists. split; [reflexivity|]. lia.
        - assert (Hd : 0 <= d < n) by (apply (ls_D _ _ _ _ _ _ L' h); rewrite ED; now left). rewrite Eh.
          destruct (Z.ltb_spec (-1) d); [|lia]. rewrite (col_at_ok _ _ _ _ _ _ R') by lia. cbn [obind vcol up_detect cl_shared3 c3].
          destruct Hl as (Hl & _). eauto. }
      destruct F as (b & Eb & ->). rewrite Eb. cbn [obind].
      assert (Inb : forall x, In x (B' h) -> inside (up_detect v fs f1 f2 f3 f4 fh) x).
      { intros x Hx. apply HB' in Hx as (Hx & Lx). apply HB in Hx as (_ & Px & Sx). destruct (Hi x Px Sx) as ((A1 & A2 & A3 & A4 & A5) & _).
        unfold inside. cbn. assert (fs x = cs v x) as -> by (destruct (merges_start _ _ _ _ _ _ _ _ _ M x) as [(X & _)|(X & _)]; lia). auto. }
      destruct (absorb_bucket_ok (S (length (wk_cols st))) (B' h) st _ R') as (w1 & gs & g1 & g2 & g4 & E1 & R1 & M1 & O1); auto.
      { pose proof (rp_n _ _ _ _ _ R'). pose proof (zrange_pigeon n (B' h) (ls_NB _ _ _ _ _ _ L' h) (ls_B _ _ _ _ _ _ L' h)).
        unfold zlen in *. lia. }
      { exact (ls_chain _ _ _ _ _ _ L' h Hh). }
      { exact (ls_NB _ _ _ _ _ _ L' h). }
      rewrite E1. cbn [obind]. unfold up_merge, up_detect in R1. cbn [rs rl r1 r2 cs cl c1 c2 c3 c4 me he] in R1.
      unfold up_detect in M1, O1. cbn [cs cl c1 c2 c4 me] in M1, O1.
      assert (MM : merges P (me v) (cl v) (cs v) (c1 v) (c2 v) gs g1 g2) by (eapply merges_trans; eauto).
      assert (HB1 : forall t x, In x (dupd B' h [] t) -> In x (B t) /\ 0 <= gs x /\ t <> h /\ In x (B' t)).
      { intros t x. unfold dupd. destruct (Z.eqb_spec h t) as [<-|Nt]; [intros []|]. intros Hx. pose proof (HB' _ _ Hx) as (X1 & X2).
        split; auto. destruct (O1 x) as (_ & ->); auto. intros Hx'. apply Nt. exact (ls_oneB _ _ _ _ _ _ L' _ _ _ Hx' Hx). }
      assert (LL : forall g3 gh, (forall t x, t <> h -> In x (D t) -> g3 x = f3 x) -> (forall t, t <> h -> gh t = fh t) ->
        linked g3 f4 (-1) (D h) (-1) -> gh h = match D h with [] => -1 | d :: _ => d end -> lists n g3 g4 gh D (dupd B' h [])).
      { intros g3 gh G3 Gh Gl Gd.
        assert (G4 : forall t x, In x (D t) -> g4 x = f4 x).
        { intros t x Hx. apply O1. intros Hx'. exact (ls_apart _ _ _ _ _ _ L' _ _ _ Hx Hx'). }
        constructor.
        - intros t Ht. unfold dupd. destruct (Z.eqb_spec h t) as [<-|Nt].
          + rewrite Gd. destruct (D h); reflexivity.
          + rewrite Gh by auto. exact (ls_head _ _ _ _ _ _ L' t Ht).
        - intros t Ht. unfold dupd. destruct (Z.eqb_spec h t) as [<-|Nt].
          + cbn [hd]. eapply linked_ext; [|exact Gl]. intros x Hx. split; eauto.
          + eapply linked_ext; [|exact (ls_linked _ _ _ _ _ _ L' t Ht)]. intros x Hx. split; eauto.
        - intros t Ht. unfold dupd. destruct (Z.eqb_spec h t) as [<-|Nt]; [exact I|].
          eapply chained_ext; [|exact (ls_chain _ _ _ _ _ _ L' t Ht)]. intros x Hx. apply O1. intros Hx'.
          apply Nt. exact (ls_oneB _ _ _ _ _ _ L' _ _ _ Hx' Hx).
        - apply (ls_D _ _ _ _ _ _ L').
        - intros t x Hx. apply HB1 in Hx as (_ & _ & _ & Hx). exact (ls_B _ _ _ _ _ _ L' _ _ Hx).
        - apply (ls_ND _ _ _ _ _ _ L').
        - intros t. unfold dupd. destruct (Z.eqb_spec h t); [constructor|]. apply (ls_NB _ _ _ _ _ _ L').
        - apply (ls_one _ _ _ _ _ _ L').
        - intros t t' x Hx Hx'. apply HB1 in Hx as (_ & _ & _ & Hx). apply HB1 in Hx' as (_ & _ & _ & Hx').
          exact (ls_oneB _ _ _ _ _ _ L' _ _ _ Hx Hx').
        - intros t t' x Hx Hx'. apply HB1 in Hx' as (_ & _ & _ & Hx'). exact (ls_apart _ _ _ _ _ _ L' _ _ _ Hx Hx'). }
      assert (Pre : forall t x, In x (pre ++ [col]) -> ~ In x (dupd B' h [] t)).
      { intros t x Hx Hx'. apply HB1 in Hx' as (X1 & X2 & X3 & X4). apply in_app_iff in Hx. destruct Hx as [Hx|[<-|[]]].
        - exact (Hpre t x Hx X4).
        - apply HB in X1. destruct X1 as (X1 & _). apply X3. symmetry. exact X1. }
      unfold empty_link. destruct (D h) as [|d l] eqn:ED.
      + rewrite Eh. destruct (Z.ltb_spec (-1) (- (hd (-1) (B' h) + 2))); [lia|].
        destruct (set_head_ok _ _ _ w1 _ h (-1) R1 Hh) as (w2 & E2 & R2). rewrite E2. vsimpl R2.
        exists w2. split; [reflexivity|]. do 7 eexists. split; [exact R2|]. split; [exact MM|]. split.
        { apply LL; auto. - intros t Nt. apply fupd_other. congruence. - apply fupd_same. }
        split; [intros t x Hx; apply HB1 in Hx; tauto|]. split; [exact H3|]. exact Pre.
      + assert (Hd : 0 <= d < n) by (apply (ls_D _ _ _ _ _ _ L' h); rewrite ED; now left). rewrite Eh.
        destruct (Z.ltb_spec (-1) d); [|lia].
        destruct (set_c3 _ _ _ w1 _ d (-1) R1) as (w2 & E2 & R2); [lia|]. rewrite E2. vsimpl R2.
        exists w2. split; [reflexivity|]. do 7 eexists. split; [exact R2|]. split; [exact MM|].
        split.
        { apply LL; auto.
          - intros t x Nt Hx. apply fupd_other. intros ->. apply Nt. apply (ls_one _ _ _ _ _ _ L' t h x); auto. rewrite ED. now left.
          - eapply linked_prev; [exact Hl|]. pose proof (ls_ND _ _ _ _ _ _ L' h) as Nd. rewrite ED in Nd. now inversion Nd. }
        split; [intros t x Hx; apply HB1 in Hx; tauto|]. split; [|exact Pre].
        intros x Hx. rewrite fupd_other; [auto|]. intros ->. apply (HD h x); auto. rewrite ED. now left.
    - exists (cs v), (c1 v), (c2 v), (c3 v), (c4 v), (he v), B. split; [destruct v; exact R|]. split; [constructor|]. split; [exact L|].
      split; [intros t x Hx; destruct (HB _ _ Hx) as (_ & _ & X); auto|]. split; auto.
    - rewrite Es in H. destruct H as (fs & f1 & f2 & f3 & f4 & fh & B' & R' & M & L' & HB' & H3 & Hpre).
      exists w', fs, f1, f2, f3, f4, fh. split; [exact E|]. split; [exact R'|]. split; [exact M|].
      apply (lists_dext _ _ _ _ D B'); auto. intros t. unfold nowhere. destruct (B' t) as [|x l] eqn:EB; auto.
      exfalso. assert (Hx : In x (B' t)) by (rewrite EB; now left). apply (Hpre t x); [|exact Hx]. apply HB' in Hx as (Hx & _). now apply HB in Hx.
  Qed.
End Absorb.
