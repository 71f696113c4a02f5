(** Forming the pivot row and subtracting its columns from the rows (colamd.rs 883-972) *)
From Coq Require Import List Arith ZArith Lia Bool Permutation.
From Verif Require Import Outcome Lib ModelColamd Spec_Colamd Proofs_Zlist Proofs_Order Proofs_View Proofs_DegreeLists Proofs_Collect.
Import ListNotations.
Local Open Scope Z_scope.

Definition memb (x : Z) (l : list Z) : bool := existsb (Z.eqb x) l.
Lemma memb_In x l : memb x l = true <-> In x l.
Proof.
  unfold memb. rewrite existsb_exists. split.
  - intros (y & H & E). apply Z.eqb_eq in E. now subst.
  - intros H. exists x. split; auto. apply Z.eqb_refl.
Qed.
Lemma memb_false x l : memb x l = false <-> ~ In x l.
Proof. rewrite <- memb_In. destruct (memb x l); split; congruence. Qed.
Lemma NoDup_snoc {A} (l : list A) x : NoDup l -> ~ In x l -> NoDup (l ++ [x]).
Proof.
  intros N H. rewrite <- (rev_involutive (l ++ [x])). apply NoDup_rev. rewrite rev_app_distr. cbn. constructor.
  - now rewrite <- in_rev.
  - now apply NoDup_rev.
Qed.
Lemma NoDup_mid {A} (l : list A) x l' : NoDup (l ++ x :: l') -> ~ In x l.
Proof. intros N H. apply NoDup_remove_2 in N. apply N. apply in_app_iff. now left. Qed.

Section Gather.
  Variables nr n na : Z.
  Hypothesis nr0 : 0 <= nr.
  Hypothesis n0 : 0 <= n.
  Notation rep := (rep nr n na).
  Notation liver := (liver nr).
  Notation livec := (livec n).

  Definition up_gather v f1 m := View (rs v) (rl v) (r1 v) (r2 v) (cs v) (cl v) f1 (c2 v) (c3 v) (c4 v) m (he v).

  Section Pivot.
    Variables (v : view) (B pf p : Z).
    Hypothesis Ly : layout nr n na v B pf.
    Hypothesis En : entries nr n v.
    Hypothesis Lp : livec v p.
    Hypothesis Tp : c1 v p < 0.
    Hypothesis T1 : forall c, livec v c -> c <> p -> 1 <= c1 v c.
    Hypothesis Cap : forall L, NoDup L -> (forall x, In x L -> livec v x /\ x <> p /\ exists r, In r (crows v p) /\ In x (rcols v r)) ->
      pf + zlen L <= na.

    Definition gathered (Q : Z -> Prop) (st : work * Z * Z) : Prop := exists P f1 m,
      rep (fst (fst st)) (up_gather v f1 m) /\ snd (fst st) = pf + zlen P /\ snd st = zsum (c1 v) P /\ NoDup P /\
      (forall x, In x P <-> livec v x /\ x <> p /\ Q x) /\
      (forall x, In x P -> f1 x = - c1 v x) /\ (forall x, ~ In x P -> f1 x = c1 v x) /\
      (forall i, ~ (pf <= i < pf + zlen P) -> m i = me v i) /\ seg m pf (zlen P) = P.
    Lemma gathered_ext Q Q' st : (forall x, Q x <-> Q' x) -> gathered Q st -> gathered Q' st.
    Proof.
      intros E (P & f1 & m & H1 & H2 & H3 & H4 & H5 & H6). exists P, f1, m. repeat (split; [assumption|]).
      split; [|exact H6]. intros x. rewrite H5, E. tauto.
    Qed.

    (** Lines 895-909 *)
    Lemma gather_col_step (Q : Z -> Prop) st i : gathered Q st -> 0 <= i < pf -> 0 <= me v i < n ->
      (forall x, Q x \/ x = me v i -> exists r, In r (crows v p) /\ In x (rcols v r)) ->
      exists st', gather_col st i = Done st' /\ gathered (fun x => Q x \/ x = me v i) st'.
    Proof.
      intros G Hi Hc HQ. destruct st as ((w & pfr) & deg). destruct G as (P & f1 & m & R & Ep & Ed & Nd & HP & F1 & F2 & Hm & Sg).
      cbn [fst snd] in *. subst pfr deg. destruct (ly_B _ _ _ _ _ _ Ly) as (HB & Hna). pose proof (zlen_nonneg P) as ZP.
      unfold gather_col. rewrite (mem_at_ok _ _ _ _ _ _ R) by lia. cbn [obind up_gather me]. rewrite Hm by lia.
      set (c := me v i) in *. rewrite (col_at_ok _ _ _ _ _ _ R) by lia. cbn [obind vcol up_gather cl_shared1 cl_start c1 cs].
      assert (Skip : (livec v c -> c = p \/ In c P) -> gathered (fun x => Q x \/ x = c) (w, pf + zlen P, zsum (c1 v) P)).
      { intros S. exists P, f1, m. cbn [fst snd]. split; [exact R|]. split; [auto|]. split; [auto|]. split; [auto|]. split; [|auto].
        intros x. rewrite HP. split; [tauto|]. intros (Lx & Nx & [Qx| ->]); auto. destruct (S Lx) as [?|Ix]; [contradiction|].
        apply HP in Ix. exact Ix. }
      destruct (Z.ltb_spec 0 (f1 c)) as [Pos|Neg]; cbn [andb].
      2:{ eexists. split; [reflexivity|]. apply Skip. intros Lc. destruct (Z.eq_dec c p) as [|Np]; [auto|]. right.
          destruct (in_dec Z.eq_dec c P) as [|NP]; auto. rewrite F2 in Neg by auto. specialize (T1 c Lc Np). lia. }
      destruct (alive (cs v c)) eqn:A.
      2:{ eexists. split; [reflexivity|]. apply Skip. intros (_ & X). apply alive_false in A. lia. }
      apply alive_true in A. assert (Lc : livec v c) by (split; auto).
      assert (NP : ~ In c P). { intros X. rewrite F1 in Pos by auto. apply HP in X. destruct X as (_ & X & _). specialize (T1 c Lc X). lia. }
      assert (Np : c <> p). { intros ->. rewrite F2 in Pos by auto. lia. }
      assert (Room : pf + zlen (P ++ [c]) <= na).
      { apply Cap; [now apply NoDup_snoc|]. intros x Hx. apply in_app_iff in Hx. destruct Hx as [Hx|[<-|[]]].
        - apply HP in Hx. destruct Hx as (X1 & X2 & X3). auto.
        - auto. }
      rewrite zlen_app, zlen_cons, zlen_nil in Room.
      destruct (set_c1 _ _ _ w _ c (- f1 c) R) as (w1 & E1 & R1); [lia|]. rewrite E1. cbn [obind]. unfold up_gather in R1. vsimpl R1.
      destruct (set_mem_ok _ _ _ w1 _ (pf + zlen P) c R1) as (w2 & E2 & R2); [lia|]. rewrite E2. cbn [obind]. vsimpl R2.
      eexists. split; [reflexivity|]. exists (P ++ [c]). do 2 eexists. cbn [fst snd]. split; [exact R2|].
      split; [rewrite zlen_app, zlen_cons, zlen_nil; lia|]. split; [rewrite zsum_app; cbn; rewrite F2 by auto; lia|].
      split; [now apply NoDup_snoc|]. split; [|split; [|split; [|split]]].
      - intros x. rewrite in_app_iff. cbn. rewrite HP. split.
        + intros [(X1 & X2 & X3)|[<-|[]]]; auto.
        + intros (X1 & X2 & [X3|X3]); auto.
      - intros x Hx. apply in_app_iff in Hx. destruct Hx as [Hx|[<-|[]]].
        + rewrite fupd_other by (intros ->; contradiction). auto.
        + rewrite fupd_same. now rewrite F2.
      - intros x Hx. rewrite in_app_iff in Hx. cbn in Hx. rewrite fupd_other by tauto. apply F2. tauto.
      - intros j Hj. rewrite zlen_app, zlen_cons, zlen_nil in Hj. rewrite fupd_other by lia. apply Hm. lia.
      - rewrite zlen_app, zlen_cons, zlen_nil. rewrite Z.add_0_r. rewrite seg_snoc by lia. rewrite fupd_same. f_equal.
        rewrite seg_fupd_out by lia. exact Sg.
    Qed.

    (** Lines 888-911 *)
    Lemma gather_rows_ok w : rep w v -> (forall r, In r (crows v p) -> liver v r) ->
      exists st', ofold gather_row (zrange (cs v p) (cs v p + cl v p)) (w, pf, 0) = Done st' /\
        gathered (fun x => exists r, In r (crows v p) /\ In x (rcols v r)) st'.
    Proof.
      intros R Hl. destruct (ly_col _ _ _ _ _ _ Ly p Lp) as (L1 & L2). destruct (ly_B _ _ _ _ _ _ Ly) as (HB & Hna).
      destruct (seg_loop (fun pre st => gathered (fun x => exists r, In r pre /\ In x (rcols v r)) st) gather_row (me v) (cs v p) (cl v p))
        with (st := (w, pf, 0)) as (st' & E & G).
      - exact L1.
      - intros i pre post ((wi & pfr) & deg) Hi Es Lpre G. fold (crows v p) in Es.
        set (r := me v i) in *. assert (Hr : In r (crows v p)) by (rewrite Es; apply in_app_iff; right; now left).
        assert (Sub : forall r', In r' pre -> In r' (crows v p)) by (intros r' X; rewrite Es; apply in_app_iff; now left).
        destruct (Hl r Hr) as (Hrr & Hra). unfold gather_row.
        pose proof G as (P & f1 & m & Ri & Ep & _ & _ & _ & _ & _ & Hm & _). cbn [fst snd] in *.
        pose proof (proj2 Lp) as Sp.
        rewrite (mem_at_ok _ _ _ _ _ _ Ri) by lia. cbn [obind up_gather me]. rewrite Hm by lia. fold r.
        rewrite (row_at_ok _ _ _ _ _ _ Ri) by lia. cbn [obind vrow up_gather rw_shared2 rw_start rw_length r2 rs rl].
        rewrite (proj2 (alive_true _) Hra).
        destruct (ly_row _ _ _ _ _ _ Ly r (conj Hrr Hra)) as (Y1 & Y2 & Y3).
        destruct (seg_loop (fun pc st => gathered (fun x => (exists r', In r' pre /\ In x (rcols v r')) \/ In x pc) st) gather_col (me v) (rs v r) (rl v r))
          with (st := (wi, pfr, deg)) as (st' & E' & G').
        + lia.
        + intros j pc postc st Hj Ec Lpc Gj. fold (rcols v r) in Ec.
          assert (Inr : In (me v j) (rcols v r)) by (rewrite Ec; apply in_app_iff; right; now left).
          destruct (gather_col_step _ st j Gj) as (st' & E' & G').
          * lia.
          * exact (en_col _ _ _ En r _ (conj Hrr Hra) Inr).
          * intros x [[(r' & X1 & X2)|X]| ->].
            -- exists r'. auto.
            -- exists r. split; auto. rewrite Ec. apply in_app_iff. now left.
            -- exists r. auto.
          * exists st'. split; auto. eapply gathered_ext; [|exact G']. intros x. cbn beta. rewrite in_app_iff. cbn. intuition.
        + eapply gathered_ext; [|exact G]. intros x. cbn. tauto.
        + exists st'. split; auto. fold (rcols v r) in G'. eapply gathered_ext; [|exact G']. intros x. cbn beta. split.
          * intros [(r' & X1 & X2)|X]; [exists r'; rewrite in_app_iff; auto|exists r; rewrite in_app_iff; cbn; auto].
          * intros (r' & X1 & X2). apply in_app_iff in X1. destruct X1 as [X1|[<-|[]]]; [left; eauto|auto].
      - exists [], (c1 v), (me v). cbn [fst snd]. split; [destruct v; exact R|]. split; [cbn; lia|]. split; [reflexivity|]. split; [constructor|].
        split. { intros x. split; [intros []|intros (_ & _ & r & [] & _)]. }
        split; [intros x []|]. split; [auto|]. split; [auto|]. apply seg_nil. cbn. lia.
      - exists st'. split; auto.
    Qed.
  End Pivot.

  (** Lines 920-925 *)
  Lemma kill_ok w v s l : rep w v -> 0 <= s -> 0 <= l -> s + l <= na -> (forall r, In r (seg (me v) s l) -> 0 <= r < nr) ->
    exists w' f2, ofold kill_row (zrange s (s + l)) w = Done w' /\ rep w' (up_r2 v f2) /\
      (forall r, In r (seg (me v) s l) -> f2 r = -1) /\ (forall r, ~ In r (seg (me v) s l) -> f2 r = r2 v r).
  Proof.
    intros R Hs Hl Hn Hr.
    destruct (seg_loop (fun pre w' => exists f2, rep w' (up_r2 v f2) /\ (forall r, In r pre -> f2 r = -1) /\ (forall r, ~ In r pre -> f2 r = r2 v r))
      kill_row (me v) s l) with (st := w) as (w' & E & f2 & H).
    - exact Hl.
    - intros i pre post wi Hi Es _ (f2 & Ri & F1 & F2). unfold kill_row. rewrite (mem_at_ok _ _ _ _ _ _ Ri) by lia. cbn [obind up_r2 me].
      assert (X : 0 <= me v i < nr) by (apply Hr; rewrite Es; apply in_app_iff; right; now left).
      destruct (set_r2 _ _ _ wi _ (me v i) dead Ri) as (w1 & E1 & R1); [lia|]. exists w1. split; [exact E1|]. vsimpl R1.
      eexists. split; [exact R1|]. split.
      + intros r Y. apply in_app_iff in Y. unfold fupd. destruct (Z.eqb_spec (me v i) r); [reflexivity|]. apply F1. destruct Y as [Y|[Y|[]]]; auto. contradiction.
      + intros r Y. rewrite in_app_iff in Y. cbn in Y. rewrite fupd_other by tauto. apply F2. tauto.
    - exists (r2 v). split; [destruct v; exact R|]. split; [intros r []|auto].
    - exists w', f2. auto.
  Qed.

  (* ----- subtracting ----- *)

  Section Subtract.
    Variables (v : view) (tag : Z) (ag : bool) (T : Z -> Z) (P : list Z).
    Hypothesis tag1 : 1 <= tag.
    Hypothesis T1 : forall c, In c P -> 1 <= T c.
    Hypothesis NP : NoDup P.
    Hypothesis HP : forall c, In c P -> 0 <= c < n /\ 0 <= cs v c /\ 0 <= cl v c /\ cs v c + cl v c <= na /\ NoDup (crows v c) /\
      (forall r, In r (crows v c) -> 0 <= r < nr) /\ 0 <= c2 v c <= n.
    Hypothesis Hmark : forall r, 0 <= r < nr -> r2 v r < tag.

    (** How much the columns of [L] in row [r] weigh *)
    Definition hits (L : list Z) (r : Z) : Z := zsum T (filter (fun c => memb r (crows v c)) L).
    Hypothesis Hhits : forall r, 0 <= r < nr -> 0 <= r2 v r -> hits P r <= r1 v r.
    (** The mark of row [r] after columns that weigh [h] were subtracted *)
    Definition mark_after (h r : Z) : Z :=
      if r2 v r <? 0 then r2 v r else if h =? 0 then r2 v r else if (r1 v r =? h) && ag then -1 else r1 v r - h + tag.

    Lemma hits_app L L' r : hits (L ++ L') r = hits L r + hits L' r.
    Proof. unfold hits. now rewrite filter_app, zsum_app. Qed.
    Lemma hits_nonneg L r : (forall c, In c L -> In c P) -> 0 <= hits L r.
    Proof. intros H. apply zsum_nonneg. intros x Hx. apply filter_In in Hx. destruct Hx as (Hx & _). specialize (T1 x (H x Hx)). lia. Qed.

    (** Lines 953-971 *)
    Lemma subtract_rows_ok w v1 t c (h : Z -> Z) : rep w v1 -> me v1 = me v -> r1 v1 = r1 v -> In c P -> 1 <= t ->
      (forall r, 0 <= r < nr -> 0 <= h r) -> (forall r, In r (crows v c) -> 0 <= r2 v r -> h r + t <= r1 v r) ->
      (forall r, 0 <= r < nr -> r2 v1 r = mark_after (h r) r) ->
      exists w' f2, ofold (subtract_row tag ag t) (zrange (cs v c) (cs v c + cl v c)) w = Done w' /\ rep w' (up_r2 v1 f2) /\
        (forall r, 0 <= r < nr -> f2 r = mark_after (h r + if memb r (crows v c) then t else 0) r).
    Proof.
      intros R Em E1 Hc Ht Hh0 Hh Hr2. destruct (HP c Hc) as (A1 & A2 & A3 & A4 & A5 & A6 & A7).
      destruct (seg_loop (fun pre w' => exists f2, rep w' (up_r2 v1 f2) /\
          (forall r, 0 <= r < nr -> f2 r = mark_after (h r + if memb r pre then t else 0) r))
        (subtract_row tag ag t) (me v) (cs v c) (cl v c)) with (st := w) as (w' & E & f2 & R' & F); auto.
      - intros i pre post wi Hi Es _ (f2 & Ri & F). fold (crows v c) in Es. set (r := me v i) in *.
        assert (Hrc : In r (crows v c)) by (rewrite Es; apply in_app_iff; right; now left). pose proof (A6 r Hrc) as Hr.
        assert (Npre : memb r pre = false). { apply memb_false. rewrite Es in A5. now apply NoDup_mid in A5. }
        unfold subtract_row. rewrite (mem_at_ok _ _ _ _ _ _ Ri) by lia. cbn [obind up_r2 me]. rewrite Em. fold r.
        rewrite (row_at_ok _ _ _ _ _ _ Ri) by lia. cbn [obind vrow up_r2 rw_shared2 rw_shared1 r2 r1]. rewrite E1.
        assert (Fr : f2 r = mark_after (h r) r). { rewrite F by auto. rewrite Npre. now rewrite Z.add_0_r. }
        assert (Later : forall g, (forall r', r' <> r -> g r' = f2 r') -> g r = mark_after (h r + t) r ->
          forall r', 0 <= r' < nr -> g r' = mark_after (h r' + (if memb r' (pre ++ [r]) then t else 0)) r').
        { intros g G1 G2 r' Hr'. destruct (Z.eq_dec r' r) as [->|N].
          - assert (memb r (pre ++ [r]) = true) as -> by (apply memb_In; apply in_app_iff; cbn; auto). exact G2.
          - rewrite G1 by auto. rewrite F by auto. f_equal. f_equal.
            assert (memb r' (pre ++ [r]) = memb r' pre) as ->; [|reflexivity].
            unfold memb. rewrite existsb_app. cbn. destruct (Z.eqb_spec r' r); [contradiction|]. now rewrite !orb_false_r. }
        pose proof (Hh0 r Hr) as Hh1. pose proof (Hmark r Hr) as Hmk. unfold alive. rewrite Fr.
        destruct (Z.ltb_spec (r2 v r) 0) as [Dd|Al].
        { assert (Em' : forall x, mark_after x r = r2 v r) by (intros x; unfold mark_after; destruct (Z.ltb_spec (r2 v r) 0); [reflexivity|lia]).
          rewrite Em'. destruct (Z.leb_spec 0 (r2 v r)); [lia|]. cbn [negb]. exists wi. split; [reflexivity|]. exists f2. split; [exact Ri|].
          apply Later; auto. rewrite Fr, !Em'. reflexivity. }
        specialize (Hh r Hrc Al).
        assert (New : forall q, q = r1 v r - (h r + t) -> (if (q =? 0) && ag then -1 else q + tag) = mark_after (h r + t) r).
        { intros q ->. unfold mark_after. destruct (Z.ltb_spec (r2 v r) 0); [lia|]. destruct (Z.eqb_spec (h r + t) 0); [lia|].
          destruct (Z.eqb_spec (r1 v r - (h r + t)) 0), (Z.eqb_spec (r1 v r) (h r + t)); try lia; reflexivity. }
        assert (Old : 0 <= mark_after (h r) r /\ (if mark_after (h r) r - tag <? 0 then r1 v r else mark_after (h r) r - tag) - t = r1 v r - (h r + t)).
        { unfold mark_after. destruct (Z.ltb_spec (r2 v r) 0); [lia|]. destruct (Z.eqb_spec (h r) 0) as [->|].
          - destruct (Z.ltb_spec (r2 v r - tag) 0); lia.
          - destruct (Z.eqb_spec (r1 v r) (h r)); [lia|]. cbn [andb]. destruct (Z.ltb_spec (r1 v r - h r + tag - tag) 0); lia. }
        destruct Old as (O1 & O2). destruct (Z.leb_spec 0 (mark_after (h r) r)); [|lia]. cbn [negb]. rewrite O2.
        specialize (New _ eq_refl). destruct ((r1 v r - (h r + t) =? 0) && ag).
        + destruct (set_r2 _ _ _ wi _ r dead Ri) as (w1 & Ew & R1); [lia|]. exists w1. split; [exact Ew|]. vsimpl R1. eexists. split; [exact R1|].
          apply Later; [intros; apply fupd_other; congruence|]. rewrite fupd_same. exact New.
        + destruct (set_r2 _ _ _ wi _ r (r1 v r - (h r + t) + tag) Ri) as (w1 & Ew & R1); [lia|]. exists w1. split; [exact Ew|]. vsimpl R1. eexists. split; [exact R1|].
          apply Later; [intros; apply fupd_other; congruence|]. rewrite fupd_same. exact New.
      - exists (r2 v1). split; [destruct v1; exact R|]. intros r Hr. cbn [memb existsb]. rewrite Z.add_0_r. auto.
      - exists w', f2. auto.
    Qed.

    Variable D : Z -> list Z.
    Hypothesis HL : lists n (c3 v) (c4 v) (he v) D nowhere.
    Hypothesis HD : forall c, In c P -> In c (D (c2 v c)).
    Hypothesis HT : forall c, In c P -> c1 v c = - T c.

    Definition without (L : list Z) (D : Z -> list Z) : Z -> list Z := fun s => filter (fun c => negb (memb c L)) (D s).

    (** Lines 932-972 *)
    Lemma subtract_ok w a : rep w v -> 0 <= a -> a + zlen P <= na -> seg (me v) a (zlen P) = P ->
      exists w' f1 f2 f3 f4 fh, ofold (subtract_column tag ag) (zrange a (a + zlen P)) w = Done w' /\
        rep w' (View (rs v) (rl v) (r1 v) f2 (cs v) (cl v) f1 (c2 v) f3 f4 (me v) fh) /\
        (forall c, In c P -> f1 c = T c) /\ (forall c, ~ In c P -> f1 c = c1 v c) /\
        (forall r, 0 <= r < nr -> f2 r = mark_after (hits P r) r) /\
        lists n f3 f4 fh (without P D) nowhere.
    Proof.
      intros R Ha Hb Hs.
      destruct (seg_loop (fun pre w' => exists f1 f2 f3 f4 fh,
        rep w' (View (rs v) (rl v) (r1 v) f2 (cs v) (cl v) f1 (c2 v) f3 f4 (me v) fh) /\
        (forall c, In c pre -> f1 c = T c) /\ (forall c, ~ In c pre -> f1 c = c1 v c) /\
        (forall r, 0 <= r < nr -> f2 r = mark_after (hits pre r) r) /\
        lists n f3 f4 fh (without pre D) nowhere) (subtract_column tag ag) (me v) a (zlen P)) with (st := w)
        as (w' & E & f1 & f2 & f3 & f4 & fh & H).
      - apply zlen_nonneg.
      - intros i pre post wi Hi Es _ (f1 & f2 & f3 & f4 & fh & Ri & F1 & F1' & F2 & L). rewrite Hs in Es. set (c := me v i) in *.
        assert (Hc : In c P) by (rewrite Es; apply in_app_iff; right; now left).
        assert (Npre : ~ In c pre) by (rewrite Es in NP; now apply NoDup_mid in NP).
        destruct (HP c Hc) as (A1 & A2 & A3 & A4 & A5 & A6 & A7).
        unfold subtract_column. rewrite (mem_at_ok _ _ _ _ _ _ Ri) by (cbn [me]; lia). cbn [obind me]. fold c.
        rewrite (col_at_ok _ _ _ _ _ _ Ri) by lia. cbn [obind vcol cl_shared1 cl_start cl_length c1 cs cl].
        rewrite F1' by auto. rewrite HT by auto. rewrite Z.opp_involutive.
        destruct (set_c1 _ _ _ wi _ c (T c) Ri) as (w1 & E1 & R1); [lia|]. rewrite E1. cbn [obind]. vsimpl R1.
        assert (Ind : In c (without pre D (c2 v c))).
        { apply filter_In. split; [now apply HD|]. now rewrite (proj2 (memb_false c pre) Npre). }
        destruct (in_split _ _ Ind) as (l1 & l2 & El).
        destruct (unlink_ok nr n na w1 _ (without pre D) c l1 l2 R1 L A7 El) as (w2 & g3 & g4 & gh & E2 & R2 & L2).
        rewrite E2. cbn [obind]. unfold up_lists in R2. cbn [rs rl r1 r2 cs cl c1 c2 c3 c4 me he] in R2, L2.
        assert (Sub : forall x, In x (pre ++ [c]) -> In x P).
        { intros x Hx. rewrite Es. apply in_app_iff in Hx. apply in_app_iff. cbn in *. tauto. }
        destruct (subtract_rows_ok w2 _ (T c) c (hits pre) R2 eq_refl eq_refl Hc (T1 c Hc)) as (w3 & g2 & E3 & R3 & G).
        + intros r Hr. apply hits_nonneg. intros x Hx. apply Sub. apply in_app_iff. auto.
        + intros r Hr Al. pose proof (A6 r Hr) as Hrr. specialize (Hhits r Hrr Al). rewrite Es in Hhits. rewrite hits_app in Hhits.
          unfold hits at 2 in Hhits. cbn [filter] in Hhits. rewrite (proj2 (memb_In _ _) Hr) in Hhits. rewrite zsum_cons in Hhits.
          assert (0 <= zsum T (filter (fun c => memb r (crows v c)) post)).
          { apply (hits_nonneg post r). intros x Hx. rewrite Es. apply in_app_iff. cbn. auto. }
          lia.
        + exact F2.
        + rewrite E3. vsimpl R3. exists w3. split; [reflexivity|]. do 5 eexists. split; [exact R3|]. split; [|split; [|split]].
          * intros x Hx. apply in_app_iff in Hx. unfold fupd. destruct (Z.eqb_spec c x) as [->|N]; [reflexivity|]. apply F1. destruct Hx as [|[|[]]]; auto. contradiction.
          * intros x Hx. rewrite in_app_iff in Hx. cbn in Hx. rewrite fupd_other by tauto. apply F1'. tauto.
          * intros r Hr. rewrite G by auto. f_equal. rewrite hits_app. f_equal. unfold hits. cbn [filter]. destruct (memb r (crows v c)); [cbn; lia|reflexivity].
          * eapply lists_dext; [exact L2| |reflexivity]. intros s. unfold dupd, without.
            assert (Q : forall x, negb (memb x (pre ++ [c])) = negb (memb x pre) && negb (x =? c)).
            { intros x. unfold memb. rewrite existsb_app. cbn. rewrite orb_false_r. now rewrite negb_orb. }
            rewrite (filter_ext _ _ Q), <- filter_filter. fold (without pre D s).
            destruct (Z.eqb_spec (c2 v c) s) as [<-|Ns].
            -- rewrite El. pose proof (ls_ND _ _ _ _ _ _ L (c2 v c)) as Nd. rewrite El in Nd. apply NoDup_remove_2 in Nd. rewrite in_app_iff in Nd.
               rewrite filter_app. cbn [filter]. rewrite Z.eqb_refl. cbn [negb].
               f_equal; apply filter_all; intros x Hx; apply negb_true_iff, Z.eqb_neq; intros ->; tauto.
            -- apply filter_all. intros x Hx. apply negb_true_iff, Z.eqb_neq. intros ->. apply Ns. exact (ls_one _ _ _ _ _ _ L _ _ _ Ind Hx).
      - exists (c1 v), (r2 v), (c3 v), (c4 v), (he v). split; [destruct v; exact R|]. split; [intros c []|]. split; [auto|]. split.
        + intros r Hr. unfold mark_after. cbn. destruct (r2 v r <? 0); reflexivity.
        + eapply lists_dext; [exact HL| |reflexivity]. intros s. unfold without. cbn. apply filter_all. auto.
      - rewrite Hs in H. exists w', f1, f2, f3, f4, fh. tauto.
    Qed.
  End Subtract.
End Gather.
