(** Garbage collection in the workspace (colamd.rs 1222-1307) *)
From Coq Require Import List Arith ZArith Lia Bool Permutation.
From Verif Require Import Outcome Lib ModelColamd Spec_Colamd Proofs_Zlist Proofs_Order Proofs_View.
Import ListNotations.
Local Open Scope Z_scope.

Section Collect.
  Variables nr n na : Z.
  Hypothesis nr0 : 0 <= nr.
  Hypothesis n0 : 0 <= n.
  Notation rep := (rep nr n na).

  Definition liver v r := 0 <= r < nr /\ 0 <= r2 v r.
  Definition livec v c := 0 <= c < n /\ 0 <= cs v c.
  Definition crows v c := seg (me v) (cs v c) (cl v c).
  Definition rcols v r := seg (me v) (rs v r) (rl v r).

  (** The columns lie in order below [B], the rows apart from each other from [B] to
      [pf]; below [pf] there are no marks. *)
  Record layout (v : view) (B pf : Z) : Prop := {
    ly_B : 0 <= B <= pf /\ pf <= na;
    ly_col : forall c, livec v c -> 0 <= cl v c /\ cs v c + cl v c <= B;
    ly_cols : forall c c', livec v c -> livec v c' -> c < c' -> cs v c + cl v c <= cs v c';
    ly_row : forall r, liver v r -> B <= rs v r /\ 1 <= rl v r /\ rs v r + rl v r <= pf;
    ly_rows : forall r r', liver v r -> liver v r' -> r <> r' -> rs v r + rl v r <= rs v r' \/ rs v r' + rl v r' <= rs v r;
    ly_mem : forall i, 0 <= i < pf -> 0 <= me v i
  }.
  (** Entries are rows and columns. *)
  Record entries (v : view) : Prop := {
    en_row : forall c r, livec v c -> In r (crows v c) -> 0 <= r < nr;
    en_col : forall r c, liver v r -> In c (rcols v r) -> 0 <= c < n
  }.

  Definition aliver v r := alive (r2 v r).
  Definition alivec v c := alive (cs v c).
  Lemma alive_true x : alive x = true <-> 0 <= x. Proof. apply Z.leb_le. Qed.
  Lemma alive_false x : alive x = false <-> x < 0. Proof. apply Z.leb_gt. Qed.

  (* ----- the columns ----- *)

  Definition up_cols v fs fl m := View (rs v) (rl v) (r1 v) (r2 v) fs fl (c1 v) (c2 v) (c3 v) (c4 v) m (he v).

  (** Lines 1246-1256 *)
  Lemma compact_entries_ok w v s l d : rep w v -> 0 <= l -> 0 <= d <= s -> s + l <= na ->
    (forall r, In r (seg (me v) s l) -> 0 <= r < nr) ->
    exists w' m e, ofold compact_entry (zrange s (s + l)) (w, d) = Done (w', e) /\ rep w' (up_me v m) /\
      compacted (aliver v) (me v) s d (s + l) m e.
  Proof.
    intros R Hl Hd Hs Hr.
    destruct (zloop (fun i st => exists m, rep (fst st) (up_me v m) /\ compacted (aliver v) (me v) s d i m (snd st))
                compact_entry s (s + l)) with (s := (w, d)) as ((w' & e) & E & m & R' & C).
    - lia.
    - intros i (wi & e) Hi (m & Ri & Ci). cbn [fst snd] in *. unfold compact_entry.
      pose proof (compacted_bound _ _ _ _ _ _ _ (proj1 Hi) Ci) as Be.
      rewrite (mem_at_ok _ _ _ _ _ _ Ri) by lia. cbn [obind up_me me].
      rewrite (compacted_here _ _ _ _ _ _ _ i (proj1 Hi) (proj2 Hd) Ci) by lia.
      assert (Hx : 0 <= me v i < nr). { apply Hr. apply In_seg. exists i. split; auto. }
      rewrite (row_at_ok _ _ _ _ _ _ Ri) by lia. cbn [obind vrow rw_shared2 up_me r2].
      destruct (alive (r2 v (me v i))) eqn:A.
      + destruct (set_mem_ok _ _ _ wi _ e (me v i) Ri) as (w1 & E1 & R1); [lia|]. rewrite E1. cbn [obind]. vsimpl R1.
        eexists. split; [reflexivity|]. cbn. eexists. split; [exact R1|]. apply compacted_keep; auto; lia.
      + eexists. split; [reflexivity|]. cbn. exists m. split; auto. apply compacted_skip; auto; lia.
    - exists (me v). cbn. split; [eapply rep_ext; [exact R|..]; cbn; auto 10|]. apply compacted_start.
    - exists w', m, e. auto.
  Qed.

  Definition kept v c := filter (aliver v) (crows v c).
  Definition keptr v r := filter (alivec v) (rcols v r).
  Definition cols_upto v c := filter (alivec v) (zrange 0 c).

  (** Lines 1238-1262 *)
  Lemma compact_columns_ok w v B pf : rep w v -> layout v B pf -> entries v ->
    exists w' fs fl m e, ofold compact_column (zrange 0 n) (w, 0) = Done (w', e) /\ rep w' (up_cols v fs fl m) /\
      (forall c, livec v c -> 0 <= fs c /\ fl c = zlen (kept v c) /\ fs c + fl c <= e /\ seg m (fs c) (fl c) = kept v c) /\
      (forall c c', livec v c -> livec v c' -> c < c' -> fs c + fl c <= fs c') /\
      (forall c, ~ livec v c -> fs c = cs v c /\ fl c = cl v c) /\
      0 <= e <= B /\ (forall i, e <= i -> m i = me v i) /\ (forall i, 0 <= i < pf -> 0 <= m i) /\
      e = zsum (fun c => zlen (kept v c)) (cols_upto v n).
  Proof.
    intros R L En.
    pose (J := fun c (st : work * Z) => exists fs fl m, rep (fst st) (up_cols v fs fl m) /\
      (forall c', livec v c' -> c' < c -> 0 <= fs c' /\ fl c' = zlen (kept v c') /\ fs c' + fl c' <= snd st /\ seg m (fs c') (fl c') = kept v c') /\
      (forall c1 c2, livec v c1 -> livec v c2 -> c1 < c2 < c -> fs c1 + fl c1 <= fs c2) /\
      (forall c', ~ livec v c' \/ c <= c' -> fs c' = cs v c' /\ fl c' = cl v c') /\
      0 <= snd st <= B /\ (forall c', livec v c' -> c <= c' -> snd st <= cs v c') /\
      (forall i, snd st <= i -> m i = me v i) /\ (forall i, 0 <= i < pf -> 0 <= m i) /\
      snd st = zsum (fun c => zlen (kept v c)) (cols_upto v c)).
    destruct (zloop J compact_column 0 n n0) with (s := (w, 0)) as ((w' & e) & E & fs & fl & m & R' & H1 & H2 & H3 & H4 & _ & H5 & H6 & H7).
    - intros c (wi & d) Hc (fs & fl & m & Ri & H1 & H2 & H3 & H4 & H5 & H6 & H7 & H8). cbn [fst snd] in *.
      unfold compact_column. rewrite (col_at_ok _ _ _ _ _ _ Ri) by lia. cbn [obind vcol up_cols cl_start cl_length cs cl].
      destruct (H3 c) as (Es & El); [right; lia|]. rewrite Es, El.
      unfold cols_upto in *. unfold J. rewrite (zrange_snoc 0 c) by lia. rewrite filter_app. cbn [filter].
      change (alive (cs v c)) with (alivec v c).
      destruct (alivec v c) eqn:A.
      + assert (Lc : livec v c) by (split; [auto|now apply alive_true]).
        destruct (ly_col _ _ _ L c Lc) as (Hl & Hb). destruct (ly_B _ _ _ L) as (HB & Hna).
        destruct (set_cs _ _ _ wi _ c d Ri) as (w1 & E1 & R1); [lia|]. rewrite E1. cbn [obind]. unfold up_cols in R1. vsimpl R1.
        pose proof (H5 c Lc ltac:(lia)) as Hd.
        assert (Sg : seg m (cs v c) (cl v c) = crows v c). { apply seg_ext. intros i Hi. apply H6. lia. }
        destruct (compact_entries_ok w1 _ (cs v c) (cl v c) d R1) as (w2 & m2 & e & E2 & R2 & C2).
        { lia. } { lia. } { lia. } { cbn [me]. rewrite Sg. intros r Hr. eapply en_row; eauto. }
        rewrite E2. cbn [obind]. vsimpl R2. cbn [me] in C2. unfold aliver in C2. cbn [r2] in C2. fold (aliver v) in C2.
        destruct (set_cl _ _ _ w2 _ c (e - d) R2) as (w3 & E3 & R3); [lia|]. rewrite E3. cbn [obind]. vsimpl R3.
        eexists. split; [reflexivity|]. cbn [fst snd]. do 3 eexists. split; [exact R3|].
        assert (Ke : seg m2 d (e - d) = kept v c). { rewrite (compacted_seg _ _ _ _ _ _ _ Hl C2). now rewrite Sg. }
        pose proof (compacted_bound _ _ (cs v c) _ (cs v c + cl v c) _ _ ltac:(lia) C2) as Be.
        assert (Le : e - d = zlen (kept v c)). { rewrite <- Ke. symmetry. apply seg_length. lia. }
        split; [|split; [|split; [|split; [|split; [|split; [|split]]]]]].
        * intros c' Lc' Hc'. unfold fupd. destruct (Z.eqb_spec c c') as [<-|Nc].
          -- split; [lia|]. split; [auto|]. split; [lia|]. exact Ke.
          -- destruct (H1 c' Lc') as (X1 & X2 & X3 & X4); [lia|]. split; [auto|]. split; [auto|]. split; [lia|].
             rewrite <- X4. apply seg_ext. intros i Hi. apply (compacted_out _ _ _ _ _ _ _ _ C2). lia.
        * intros a b La Lb Hab. unfold fupd. destruct (Z.eqb_spec c a) as [<-|Na], (Z.eqb_spec c b) as [<-|Nb]; try lia.
          -- destruct (H1 a La) as (X1 & X2 & X3 & X4); lia.
          -- apply H2; auto. lia.
        * intros c' Hc'. destruct (Z.eq_dec c c') as [<-|Nc]; [destruct Hc' as [X|X]; [contradiction|lia]|].
          rewrite !fupd_other by auto. apply H3. destruct Hc'; [auto|right; lia].
        * lia.
        * intros c' Lc' Hc'. pose proof (ly_cols _ _ _ L c c' Lc Lc' ltac:(lia)). lia.
        * intros i Hi. rewrite (compacted_out _ _ _ _ _ _ _ _ C2) by lia. apply H6. lia.
        * intros i Hi. destruct (Z_le_gt_dec d i) as [X|X]; [destruct (Z_lt_ge_dec i e) as [Y|Y]|].
          -- assert (In (m2 i) (kept v c)). { rewrite <- Ke. apply In_seg. exists i. split; [lia|auto]. }
             apply filter_In in H. destruct H as (H & _). apply (en_row _ En c) in H; [lia|auto].
          -- rewrite (compacted_out _ _ _ _ _ _ _ _ C2) by lia. auto.
          -- rewrite (compacted_out _ _ _ _ _ _ _ _ C2) by lia. auto.
        * rewrite zsum_app. cbn. lia.
      + eexists. split; [reflexivity|]. cbn [fst snd]. exists fs, fl, m. split; [exact Ri|].
        assert (NL : ~ livec v c) by (intros (_ & X); apply alive_false in A; lia).
        split; [|split; [|split; [|split; [|split; [|split; [|split]]]]]]; auto.
        * intros c' Lc' Hc'. apply H1; auto. assert (c' <> c) by (intros ->; contradiction). lia.
        * intros a b La Lb Hab. apply H2; auto. assert (b <> c) by (intros ->; contradiction). lia.
        * intros c' Hc'. apply H3. destruct Hc'; auto. right. lia.
        * intros c' Lc' Hc'. apply H5; auto. lia.
        * now rewrite app_nil_r.
    - exists (cs v), (cl v), (me v). cbn [fst snd]. split; [destruct v; exact R|]. destruct (ly_B _ _ _ L).
      split; [intros c' (X & _) Y; lia|]. split; [intros a b (X & _) (Y & _) U; lia|]. split; [auto|]. split; [lia|]. split; [intros c' (X & Y); lia|].
      split; [auto|]. split; [apply (ly_mem _ _ _ L)|]. reflexivity.
    - exists w', fs, fl, m, e. cbn [fst snd] in *. split; [exact E|]. split; [exact R'|].
      split; [intros c Lc; apply H1; [auto|destruct Lc; lia]|]. split; [intros a b La Lb Hab; apply H2; auto; destruct Lb; lia|].
      split; [intros; apply H3; auto|]. auto.
  Qed.

  (* ----- the rows ----- *)

  Definition up_rows v fs fl f2 m := View fs fl (r1 v) f2 (cs v) (cl v) (c1 v) (c2 v) (c3 v) (c4 v) m (he v).

  (** Lines 1264-1275 *)
  Lemma mark_rows_ok w v B pf : rep w v ->
    0 <= B -> pf <= na -> (forall r, liver v r -> B <= rs v r /\ 1 <= rl v r /\ rs v r + rl v r <= pf) ->
    (forall r r', liver v r -> liver v r' -> r <> r' -> rs v r + rl v r <= rs v r' \/ rs v r' + rl v r' <= rs v r) ->
    exists w' f2 m, ofold mark_row (zrange 0 nr) w = Done w' /\ rep w' (up_rows v (rs v) (rl v) f2 m) /\
      (forall r, liver v r -> f2 r = me v (rs v r) /\ m (rs v r) = - r - 1) /\
      (forall r, 0 <= r < nr -> ~ liver v r -> f2 r = -1) /\
      (forall i, (forall r, liver v r -> rs v r <> i) -> m i = me v i).
  Proof.
    intros R HB Hna Hr Hd.
    destruct (zloop (fun r w' => exists f2 m, rep w' (up_rows v (rs v) (rl v) f2 m) /\
      (forall r', liver v r' -> r' < r -> f2 r' = me v (rs v r') /\ m (rs v r') = - r' - 1) /\
      (forall r', 0 <= r' < nr -> ~ liver v r' -> r' < r -> f2 r' = -1) /\
      (forall r', r <= r' -> f2 r' = r2 v r') /\
      (forall i, (forall r', liver v r' -> r' < r -> rs v r' <> i) -> m i = me v i)) mark_row 0 nr nr0) with (s := w)
      as (w' & E & f2 & m & R' & H1 & H2 & _ & H4).
    - intros r wi Hri (f2 & m & Ri & H1 & H2 & H3 & H4). unfold mark_row. rewrite (row_at_ok _ _ _ _ _ _ Ri) by lia.
      cbn [obind vrow up_rows rw_shared2 rw_length rw_start r2 rl rs]. rewrite H3 by lia.
      destruct (alive (r2 v r)) eqn:A; cbn [negb orb].
      + assert (Lr : liver v r) by (split; [auto|now apply alive_true]). destruct (Hr r Lr) as (X1 & X2 & X3).
        destruct (Z.eqb_spec (rl v r) 0); [lia|]. cbv iota.
        rewrite (mem_at_ok _ _ _ _ _ _ Ri) by lia. cbn [obind up_rows me].
        destruct (set_r2 _ _ _ wi _ r (m (rs v r)) Ri) as (w1 & E1 & R1); [lia|]. rewrite E1. cbn [obind]. unfold up_rows in R1. vsimpl R1.
        destruct (set_mem_ok _ _ _ w1 _ (rs v r) (- r - 1) R1) as (w2 & E2 & R2); [lia|]. rewrite E2. vsimpl R2.
        assert (Ap : forall r', liver v r' -> r' <> r -> rs v r' <> rs v r).
        { intros r' Lr' Nr. destruct (Hr r' Lr'). destruct (Hd r r' Lr Lr'); auto; lia. }
        eexists. split; [reflexivity|]. do 2 eexists. split; [exact R2|].
        split; [|split; [|split]].
        * intros r' Lr' Hr'. destruct (Z.eq_dec r r') as [<-|N].
          -- rewrite !fupd_same. split; auto. apply H4. intros r' Lr'' Hr''. apply Ap; auto. lia.
          -- rewrite !fupd_other; auto. apply H1; auto. lia. intros X. symmetry in X. revert X. apply Ap; auto.
        * intros r' Hr1 Hr2 Hr3. rewrite fupd_other by (intros ->; contradiction). apply H2; auto.
          assert (r' <> r) by (intros ->; contradiction). lia.
        * intros r' Hr'. rewrite fupd_other by lia. apply H3. lia.
        * intros i Hi. rewrite fupd_other by (apply Hi; auto; lia). apply H4. intros r' Lr' Hr'. apply Hi; auto. lia.
      + destruct (set_r2 _ _ _ wi _ r dead Ri) as (w1 & E1 & R1); [lia|]. rewrite E1. unfold up_rows in R1. vsimpl R1.
        assert (NL : ~ liver v r) by (intros (_ & X); apply alive_false in A; lia).
        eexists. split; [reflexivity|]. do 2 eexists. split; [exact R1|].
        split; [|split; [|split]].
        * intros r' Lr' Hr'. assert (r <> r') by (intros ->; contradiction). rewrite fupd_other by auto. apply H1; auto. lia.
        * intros r' Hr1 Hr2 Hr3. unfold fupd. destruct (Z.eqb_spec r r'); [reflexivity|]. apply H2; auto. lia.
        * intros r' Hr'. rewrite fupd_other by lia. apply H3. lia.
        * intros i Hi. apply H4. intros r' Lr' Hr'. apply Hi; auto. lia.
    - exists (r2 v), (me v). split; [destruct v; exact R|]. split; [intros r' (X & _); lia|]. split; [intros; lia|]. split; auto.
    - exists w', f2, m. split; [exact E|]. split; [exact R'|]. split; [|split].
      + intros r Lr. apply H1; auto. destruct Lr; lia.
      + intros r Hr1 NL. apply H2; auto. lia.
      + intros i Hi. apply H4. intros r Lr _. auto.
  Qed.

  (** Lines 1289-1299 *)
  Lemma compact_row_entries_ok w v s l d : rep w v -> 0 <= l -> 0 <= d <= s -> s + l <= na ->
    (forall c, In c (seg (me v) s l) -> 0 <= c < n) ->
    exists w' m e, ofold compact_row_entry (zrange s (s + l)) (w, d) = Done (w', e) /\ rep w' (up_me v m) /\
      compacted (alivec v) (me v) s d (s + l) m e.
  Proof.
    intros R Hl Hd Hs Hr.
    destruct (zloop (fun i st => exists m, rep (fst st) (up_me v m) /\ compacted (alivec v) (me v) s d i m (snd st))
                compact_row_entry s (s + l)) with (s := (w, d)) as ((w' & e) & E & m & R' & C).
    - lia.
    - intros i (wi & e) Hi (m & Ri & Ci). cbn [fst snd] in *. unfold compact_row_entry.
      pose proof (compacted_bound _ _ _ _ _ _ _ (proj1 Hi) Ci) as Be.
      rewrite (mem_at_ok _ _ _ _ _ _ Ri) by lia. cbn [obind up_me me].
      rewrite (compacted_here _ _ _ _ _ _ _ i (proj1 Hi) (proj2 Hd) Ci) by lia.
      assert (Hx : 0 <= me v i < n). { apply Hr. apply In_seg. exists i. split; auto. }
      rewrite (col_at_ok _ _ _ _ _ _ Ri) by lia. cbn [obind vcol cl_start up_me cs].
      destruct (alive (cs v (me v i))) eqn:A.
      + destruct (set_mem_ok _ _ _ wi _ e (me v i) Ri) as (w1 & E1 & R1); [lia|]. rewrite E1. cbn [obind]. vsimpl R1.
        eexists. split; [reflexivity|]. cbn. eexists. split; [exact R1|]. apply compacted_keep; auto; lia.
      + eexists. split; [reflexivity|]. cbn. exists m. split; auto. apply compacted_skip; auto; lia.
    - exists (me v). cbn. split; [eapply rep_ext; [exact R|..]; cbn; auto 10|]. apply compacted_start.
    - exists w', m, e. auto.
  Qed.

  (** Lines 1277-1304: [m0] is the memory before the rows were marked. *)
  Section Rows.
    Variables (v : view) (m0 : Z -> Z) (B pf : Z).
    Hypothesis HB : 0 <= B <= pf.
    Hypothesis Hna : pf <= na.
    Variable live : Z -> Prop.
    Hypothesis Hlive : forall r, live r -> 0 <= r < nr.
    Hypothesis Hrow : forall r, live r -> B <= rs v r /\ 1 <= rl v r /\ rs v r + rl v r <= pf.
    Hypothesis Hdis : forall r r', live r -> live r' -> r <> r' -> rs v r + rl v r <= rs v r' \/ rs v r' + rl v r' <= rs v r.
    Hypothesis Hmark : forall r, live r -> r2 v r = m0 (rs v r) /\ me v (rs v r) = - r - 1.
    Hypothesis Hother : forall i, (forall r, live r -> rs v r <> i) -> me v i = m0 i.
    Hypothesis Hnn : forall i, 0 <= i < pf -> 0 <= m0 i.
    Hypothesis Hent : forall r c, live r -> In c (seg m0 (rs v r) (rl v r)) -> 0 <= c < n.
    Definition keptm r := filter (alivec v) (seg m0 (rs v r) (rl v r)).
    Hypothesis Hdec : forall r, live r \/ ~ live r.

    Definition scanned (d0 a e : Z) (w : work) : Prop := exists fs fl m (dn : list Z),
      rep w (up_rows v fs fl (r2 v) m) /\ d0 <= e <= a /\ a <= pf /\
      NoDup dn /\ (forall r, In r dn <-> live r /\ rs v r < a) /\
      (forall r, live r -> rs v r < a -> rs v r + rl v r <= a) /\
      (forall r, In r dn -> d0 <= fs r /\ fs r + fl r <= e /\ fl r = zlen (keptm r) /\ seg m (fs r) (fl r) = keptm r) /\
      (forall r r', In r dn -> In r' dn -> r <> r' -> fs r + fl r <= fs r' \/ fs r' + fl r' <= fs r) /\
      (forall r, ~ In r dn -> fs r = rs v r /\ fl r = rl v r) /\
      (forall i, a <= i -> m i = me v i) /\ (forall i, i < d0 -> m i = m0 i) /\ (forall i, 0 <= i < e -> 0 <= m i) /\
      e = d0 + zsum (fun r => zlen (keptm r)) dn.

    Lemma row_inside r i : live r -> rs v r < i < rs v r + rl v r -> me v i = m0 i.
    Proof.
      intros Lr Hi. apply Hother. intros r' Lr' E. destruct (Z.eq_dec r r') as [<-|N]; [lia|].
      destruct (Hrow r' Lr'). destruct (Hdis r r' Lr Lr' N); lia.
    Qed.

    Lemma compact_rows_ok d0 : 0 <= d0 <= B -> forall fuel w a e, (pf - a < Z.of_nat fuel) -> scanned d0 a e w ->
      exists w' e', compact_rows fuel pf w a e = Done (w', e') /\ scanned d0 pf e' w'.
    Proof.
      intros Hd0. induction fuel as [|fuel IH]; intros w a e F S.
      { destruct S as (? & ? & ? & ? & _ & _ & X & _). lia. }
      cbn [compact_rows]. destruct S as (fs & fl & m & dn & R & He & Ha & Nd & Hdn & Hpast & Hseg & Hap & Hrest & Hm & Hlow & Hnonneg & Hsum).
      destruct (Z.ltb_spec a pf) as [La|La].
      2:{ exists w, e. split; [reflexivity|]. replace pf with a by lia. exists fs, fl, m, dn. auto 20. }
      rewrite (mem_at_ok _ _ _ _ _ _ R) by lia. cbn [obind up_rows me]. rewrite Hm by lia.
      destruct (Z.ltb_spec (me v a) 0) as [Ng|Nn].
      - (* a row starts here *)
        assert (X : exists r, live r /\ rs v r = a).
        { assert (G : forall k, (forall r, 0 <= r < Z.of_nat k -> live r -> rs v r <> a) \/ exists r, live r /\ rs v r = a).
          { induction k as [|k IHk]; [left; intros; lia|]. destruct IHk as [IHk|IHk]; auto.
            destruct (Hdec (Z.of_nat k)) as [Lk|Lk].
            - destruct (Z.eq_dec (rs v (Z.of_nat k)) a) as [Ek|Nk]; [right; eauto|].
              left. intros r Hr Lr. destruct (Z.eq_dec r (Z.of_nat k)) as [->|]; auto. apply IHk; auto. lia.
            - left. intros r Hr Lr. destruct (Z.eq_dec r (Z.of_nat k)) as [->|]; [contradiction|]. apply IHk; auto. lia. }
          destruct (G (Z.to_nat nr)) as [G'|G']; auto. exfalso.
          assert (me v a = m0 a). { apply Hother. intros r Lr. apply G'; auto. pose proof (Hlive r Lr). lia. }
          pose proof (Hnn a ltac:(lia)). lia. }
        destruct X as (r & Lr & Er). destruct (Hmark r Lr) as (M2 & M1). rewrite Er in M1, M2. rewrite M1.
        replace (- (- r - 1) - 1) with r by lia. pose proof (Hlive r Lr) as Hr. destruct (Hrow r Lr) as (W1 & W2 & W3). rewrite Er in W1, W3.
        rewrite (row_at_ok _ _ _ _ _ _ R) by lia. cbn [obind vrow up_rows rw_shared2 rw_length r2 rl].
        assert (Nr : ~ In r dn) by (rewrite Hdn; lia). destruct (Hrest r Nr) as (Efs & Efl). rewrite Efl, M2.
        destruct (set_mem_ok _ _ _ w _ a (m0 a) R) as (w1 & E1 & R1); [lia|]. rewrite E1. cbn [obind]. unfold up_rows in R1. vsimpl R1.
        destruct (set_rs _ _ _ w1 _ r e R1) as (w2 & E2 & R2); [lia|]. rewrite E2. cbn [obind]. vsimpl R2.
        assert (Sg : seg (fupd m a (m0 a)) a (rl v r) = seg m0 (rs v r) (rl v r)).
        { rewrite Er. apply seg_ext. intros i Hi. unfold fupd. destruct (Z.eqb_spec a i) as [<-|]; [reflexivity|].
          rewrite Hm by lia. apply (row_inside r i Lr). lia. }
        destruct (compact_row_entries_ok w2 _ a (rl v r) e R2) as (w3 & m3 & e3 & E3 & R3 & C3).
        { lia. } { lia. } { lia. } { cbn [me]. rewrite Sg. intros c Hc. eapply Hent; eauto. }
        rewrite E3. cbn [obind]. vsimpl R3. cbn [me] in C3. unfold alivec in C3. cbn [cs] in C3. fold (alivec v) in C3.
        destruct (set_rl _ _ _ w3 _ r (e3 - e) R3) as (w4 & E4 & R4); [lia|]. rewrite E4. cbn [obind]. vsimpl R4.
        pose proof (compacted_bound _ _ a _ (a + rl v r) _ _ ltac:(lia) C3) as Be.
        assert (Ke : seg m3 e (e3 - e) = keptm r). { rewrite (compacted_seg _ _ _ _ (rl v r) _ _ ltac:(lia) C3). unfold keptm. now rewrite Sg. }
        assert (Le : e3 - e = zlen (keptm r)). { rewrite <- Ke. symmetry. apply seg_length. lia. }
        apply IH; [lia|]. do 3 eexists. exists (dn ++ [r]). split; [exact R4|]. split; [lia|]. split; [lia|].
        split. { apply NoDup_rev in Nd. rewrite <- (rev_involutive (dn ++ [r])). apply NoDup_rev. rewrite rev_app_distr. cbn. constructor; auto. now rewrite <- in_rev. }
        assert (Hq : forall r', live r' -> rs v r' < a + rl v r -> r' = r \/ rs v r' < a).
        { intros r' Lr' X. destruct (Z.eq_dec r' r) as [|N]; [auto|]. right. destruct (Hrow r' Lr') as (? & ? & ?). destruct (Hdis r r' Lr Lr' ltac:(congruence)); lia. }
        split; [|split; [|split; [|split; [|split; [|split; [|split; [|split]]]]]]].
        * intros r'. rewrite in_app_iff. cbn. rewrite Hdn. split.
          -- intros [(X & Y)|[<-|[]]]; split; auto; lia.
          -- intros (X & Y). destruct (Hq r' X Y) as [->|Z']; auto.
        * intros r' Lr' X. destruct (Hq r' Lr' X) as [->|Y]; [lia|]. specialize (Hpast r' Lr' Y). lia.
        * intros r' Hr'. apply in_app_iff in Hr'. destruct Hr' as [Hr'|[<-|[]]].
          -- assert (r <> r') by (intros ->; contradiction). rewrite !fupd_other by auto. destruct (Hseg r' Hr') as (X1 & X2 & X3 & X4).
             split; [auto|]. split; [lia|]. split; [auto|]. rewrite <- X4. apply seg_ext. intros i Hi.
             rewrite (compacted_out _ _ _ _ _ _ _ _ C3) by lia. apply fupd_other. lia.
          -- rewrite !fupd_same. split; [lia|]. split; [lia|]. auto.
        * intros r' r'' Hr' Hr'' N. apply in_app_iff in Hr'. apply in_app_iff in Hr''. cbn in Hr', Hr''.
          destruct Hr' as [Hr'|[<-|[]]], Hr'' as [Hr''|[<-|[]]].
          -- assert (r <> r') by (intros ->; contradiction). assert (r <> r'') by (intros ->; contradiction). rewrite !fupd_other by auto. auto.
          -- assert (r <> r') by (intros ->; contradiction). rewrite !fupd_same, !fupd_other by auto. left. destruct (Hseg r' Hr') as (X1 & X2 & _). lia.
          -- assert (r <> r'') by (intros ->; contradiction). rewrite !fupd_same, !fupd_other by auto. right. destruct (Hseg r'' Hr'') as (X1 & X2 & _). lia.
          -- congruence.
        * intros r' Hr'. rewrite in_app_iff in Hr'. cbn in Hr'. assert (r <> r') by tauto. rewrite !fupd_other by auto. apply Hrest. tauto.
        * intros i Hi. rewrite (compacted_out _ _ _ _ _ _ _ _ C3) by lia. rewrite fupd_other by lia. apply Hm. lia.
        * intros i Hi. rewrite (compacted_out _ _ _ _ _ _ _ _ C3) by lia. rewrite fupd_other by lia. apply Hlow. lia.
        * intros i Hi. destruct (Z_le_gt_dec e i) as [X|X].
          -- assert (In (m3 i) (keptm r)). { rewrite <- Ke. apply In_seg. exists i. split; [lia|auto]. }
             apply filter_In in H. destruct H as (H & _). apply (Hent r) in H; [lia|auto].
          -- rewrite (compacted_out _ _ _ _ _ _ _ _ C3) by lia. rewrite fupd_other by lia. apply Hnonneg. lia.
        * rewrite zsum_app. cbn. lia.
      - (* no row starts here *)
        assert (No : forall r, live r -> rs v r <> a).
        { intros r Lr E. destruct (Hmark r Lr) as (_ & X). rewrite E in X. pose proof (Hlive r Lr). lia. }
        apply IH; [lia|]. exists fs, fl, m, dn. split; [exact R|]. split; [lia|]. split; [lia|]. split; [exact Nd|].
        assert (Hq : forall r, live r -> rs v r < a + 1 -> rs v r < a) by (intros r Lr X; specialize (No r Lr); lia).
        split; [|split; [|split; [|split; [|split; [|split; [|split; [|split]]]]]]]; auto.
        * intros r. rewrite Hdn. split; intros (X & Y); split; auto. lia.
        * intros r Lr X. specialize (Hpast r Lr (Hq r Lr X)). lia.
        * intros i Hi. apply Hm. lia.
    Qed.
  End Rows.

  Lemma liver_dec v r : liver v r \/ ~ liver v r.
  Proof. unfold liver. lia. Qed.

  (** Lines 1222-1307 *)
  Lemma collect_ok w v B pf : rep w v -> layout v B pf -> entries v ->
    (forall r, liver v r -> exists c, In c (rcols v r) /\ livec v c) ->
    exists w' pf' B' v' dn, garbage_collection nr n w pf = Done (w', pf') /\ rep w' v' /\ layout v' B' pf' /\
      r1 v' = r1 v /\ c1 v' = c1 v /\ c2 v' = c2 v /\ c3 v' = c3 v /\ c4 v' = c4 v /\ he v' = he v /\
      (forall c, livec v' c <-> livec v c) /\ (forall c, ~ livec v c -> cs v' c = cs v c) /\
      (forall c, livec v c -> crows v' c = kept v c /\ cl v' c = zlen (kept v c)) /\
      (forall r, liver v' r <-> liver v r) /\ (forall r, liver v r -> rcols v' r = keptr v r) /\
      B' = zsum (fun c => zlen (kept v c)) (cols_upto v n) /\
      NoDup dn /\ (forall r, In r dn <-> liver v r) /\ pf' = B' + zsum (fun r => zlen (keptr v r)) dn.
  Proof.
    intros R L En Ne. unfold garbage_collection. destruct (ly_B _ _ _ L) as (HB & Hna).
    destruct (compact_columns_ok w v B pf R L En) as (w1 & fs & fl & m & d & E1 & R1 & K1 & K2 & K3 & K4 & K5 & K6 & K7).
    rewrite E1. cbn [obind].
    destruct (mark_rows_ok w1 _ B pf R1) as (w2 & f2 & m2 & E2 & R2 & M1 & M2 & M3).
    { lia. } { lia. } { exact (ly_row _ _ _ L). } { exact (ly_rows _ _ _ L). }
    rewrite E2. cbn [obind]. unfold up_rows, up_cols in R2. cbn [rs rl r1 r2 cs cl c1 c2 c3 c4 me he] in R2.
    unfold up_cols in M1, M2, M3. cbn [rs me] in M1, M3.
    set (v2 := {| rs := rs v |}) in R2.
    assert (Sgr : forall r, liver v r -> seg m (rs v2 r) (rl v2 r) = rcols v r).
    { intros r Lr. apply seg_ext. intros i Hi. cbn [v2 rs rl] in *. destruct (ly_row _ _ _ L r Lr). apply K5. lia. }
    assert (Al : forall c, 0 <= c < n -> alivec v2 c = alivec v c).
    { intros c Hc. unfold alivec. cbn [v2 cs]. destruct (Z_le_gt_dec 0 (cs v c)) as [X|X].
      - destruct (K1 c) as (Y & _); [split; auto|]. transitivity true; [now apply alive_true|symmetry; now apply alive_true].
      - destruct (K3 c) as (-> & _); [intros (_ & Y); lia|]. reflexivity. }
    assert (Kr : forall r, liver v r -> keptm v2 m r = keptr v r).
    { intros r Lr. unfold keptm, keptr. rewrite Sgr by auto. apply filter_ext_In. intros c Hc. apply Al. eapply en_col; eauto. }
    destruct (compact_rows_ok v2 m B pf HB Hna (liver v)) with (d0 := d) (fuel := S (length (wk_A w2))) (w := w2) (a := d) (e := d)
      as (w3 & e3 & E3 & S3).
    - intros r (Hr & _). exact Hr.
    - exact (ly_row _ _ _ L).
    - exact (ly_rows _ _ _ L).
    - exact M1.
    - exact M3.
    - exact K6.
    - intros r c Lr Hc. rewrite Sgr in Hc by auto. eapply en_col; eauto.
    - apply liver_dec.
    - exact K4.
    - pose proof (rp_na _ _ _ _ _ R2). unfold zlen in *. lia.
    - exists (rs v), (rl v), m2, []. split; [exact R2|]. split; [lia|]. split; [lia|]. split; [constructor|].
      assert (No : forall r, liver v r -> rs v r < d -> False) by (intros r Lr X; destruct (ly_row _ _ _ L r Lr); lia).
      split; [intros r; cbn; split; [intros []|intros (X & Y); exact (No r X Y)]|].
      split; [intros r X Y; destruct (No r X Y)|]. split; [intros r []|]. split; [intros r r' []|].
      split; [auto|]. split; [auto|].
      assert (Lo : forall i, i < d -> m2 i = m i). { intros i Hi. apply M3. intros r Lr. destruct (ly_row _ _ _ L r Lr). lia. }
      split; [exact Lo|]. split; [|cbn; lia]. intros i Hi. rewrite Lo by lia. apply K6. lia.
    - rewrite E3. destruct S3 as (gs & gl & m3 & dn & R3 & He & _ & Nd & Hdn & _ & Hseg & Hap & Hrest & _ & Hlow & Hnn & Hsum).
      assert (Hdn' : forall r, In r dn <-> liver v r).
      { intros r. rewrite Hdn. split; [tauto|]. intros Lr. split; auto. destruct (ly_row _ _ _ L r Lr). cbn [v2 rs]. lia. }
      exists w3, e3, d. eexists. exists dn. split; [reflexivity|]. split; [exact R3|].
      set (v3 := up_rows v2 gs gl (r2 v2) m3).
      assert (Lc : forall c, livec v3 c <-> livec v c).
      { intros c. unfold livec. cbn [v3 up_rows v2 cs]. split; intros (X & Y); split; auto.
        - destruct (Z_le_gt_dec 0 (cs v c)); auto. destruct (K3 c) as (Z1 & _); [intros (_ & ?); lia|]. lia.
        - apply K1. split; auto. }
      assert (Lr : forall r, liver v3 r <-> liver v r).
      { intros r. split.
        - intros (X & Y). destruct (liver_dec v r) as [Z1|Z1]; auto. cbn [v3 up_rows v2 r2] in Y. rewrite M2 in Y; auto. lia.
        - intros Z1. pose proof Z1 as (X & _). split; auto. cbn [v3 up_rows v2 r2]. destruct (M1 r Z1) as (-> & _).
          apply K6. destruct (ly_row _ _ _ L r Z1). lia. }
      assert (Sc : forall c, livec v c -> seg m3 (fs c) (fl c) = kept v c).
      { intros c Hc. destruct (K1 c Hc) as (X1 & X2 & X3 & X4). rewrite <- X4. apply seg_ext. intros i Hi. apply Hlow. lia. }
      split; [constructor|].
      + pose proof (ly_mem _ _ _ L). lia.
      + intros c Hc. apply Lc in Hc. destruct (K1 c Hc) as (X1 & X2 & X3 & X4). cbn [v3 up_rows v2 cs cl]. rewrite X2. pose proof (zlen_nonneg (kept v c)). lia.
      + intros c c' Hc Hc' N. apply Lc in Hc. apply Lc in Hc'. cbn [v3 up_rows v2 cs cl]. apply K2; auto.
      + intros r Hr. apply Lr in Hr. pose proof (proj2 (Hdn' r) Hr) as Hd. destruct (Hseg r Hd) as (X1 & X2 & X3 & X4).
        cbn [v3 up_rows rs rl]. split; [auto|]. split; [|auto]. rewrite X3, Kr by auto.
        destruct (Ne r Hr) as (c & Hc & Lvc). assert (Ik : In c (keptr v r)). { apply filter_In. split; auto. apply alive_true. apply Lvc. }
        destruct (keptr v r); [destruct Ik|]. rewrite zlen_cons. pose proof (zlen_nonneg l). lia.
      + intros r r' Hr Hr' N. apply Lr in Hr. apply Lr in Hr'. cbn [v3 up_rows rs rl]. apply Hap; auto; now apply Hdn'.
      + intros i Hi. cbn [v3 up_rows me]. apply Hnn. lia.
      + cbn [up_rows v2 r1 c1 c2 c3 c4 he]. repeat (split; [reflexivity|]). split; [exact Lc|].
        split. { intros c Hc. cbn [v3 up_rows v2 cs]. now destruct (K3 c Hc). }
        split. { intros c Hc. unfold crows. cbn [v3 up_rows v2 me cs cl]. split; [now apply Sc|]. now destruct (K1 c Hc) as (_ & -> & _). }
        split; [exact Lr|].
        split. { intros r Hr. unfold rcols. cbn [v3 up_rows me rs rl]. rewrite <- Kr by auto. apply Hseg. now apply Hdn'. }
        split; [exact K7|]. split; [exact Nd|]. split; [exact Hdn'|].
        rewrite Hsum. f_equal. apply zsum_ext. intros r Hr. rewrite Kr; auto. now apply Hdn'.
  Qed.

  (** Lines 1308-1326 *)
  Lemma clear_mark_ok w v tag mx : rep w v -> exists w' f2 tag', clear_mark tag mx nr w = Done (w', tag') /\ rep w' (up_r2 v f2) /\
    1 <= tag' /\ ((tag' = tag /\ f2 = r2 v /\ 0 < tag) \/ (tag' = 1 /\ forall r, 0 <= r < nr -> f2 r = if alive (r2 v r) then 0 else r2 v r)).
  Proof.
    intros R. unfold clear_mark. destruct (Z.leb_spec tag 0) as [H|H], (Z.leb_spec mx tag) as [H'|H']; cbn [orb].
    4:{ exists w, (r2 v), tag. split; [reflexivity|]. split; [destruct v; exact R|]. split; [lia|]. left. auto. }
    all: (destruct (zloop (fun i w' => exists f2, rep w' (up_r2 v f2) /\ (forall r, 0 <= r < i -> f2 r = if alive (r2 v r) then 0 else r2 v r) /\
        (forall r, i <= r -> f2 r = r2 v r)) (fun w r => let! row := row_at w r in if alive (rw_shared2 row) then set_row w r (rw_set_shared2 0) else Done w) 0 nr nr0)
        with (s := w) as (w' & E & f2 & R' & F1 & _);
      [intros i wi Hi (f2 & Ri & F1 & F2); rewrite (row_at_ok _ _ _ _ _ _ Ri) by lia; cbn [obind vrow up_r2 rw_shared2 r2];
       rewrite F2 by lia; destruct (alive (r2 v i)) eqn:A;
       [destruct (set_r2 _ _ _ wi _ i 0 Ri) as (w1 & E1 & R1); [lia|]; exists w1; split; [exact E1|]; vsimpl R1; eexists; split; [exact R1|]; split;
        [intros r Hr; unfold fupd; destruct (Z.eqb_spec i r) as [<-|]; [now rewrite A|apply F1; lia]
        |intros r Hr; rewrite fupd_other by lia; apply F2; lia]
       |exists wi; split; [reflexivity|]; exists f2; split; [exact Ri|]; split;
        [intros r Hr; destruct (Z.eq_dec r i) as [->|]; [rewrite A; apply F2; lia|apply F1; lia]
        |intros r Hr; apply F2; lia]]
      |exists (r2 v); split; [destruct v; exact R|]; split; [intros; lia|auto]
      |exists w', f2, 1; rewrite E; split; [reflexivity|]; split; [exact R'|]; split; [lia|]; right; auto]).
  Qed.
End Collect.
