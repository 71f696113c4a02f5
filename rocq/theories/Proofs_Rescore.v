(** Scoring the columns of the pivot row and writing it (colamd.rs 973-1022, 1025-1066) *)
From Coq Require Import List Arith ZArith Lia Bool Permutation.
From Verif Require Import Outcome Lib ModelColamd Spec_Colamd Proofs_Zlist Proofs_Order Proofs_View Proofs_DegreeLists Proofs_Collect Proofs_Gather.
Import ListNotations.
Local Open Scope Z_scope.

Section Rescore.
  Variables nr n na : Z.
  Hypothesis nr0 : 0 <= nr.
  Hypothesis n0 : 0 <= n.
  Notation rep := (rep nr n na).

  (** Lines 980-996 *)
  Lemma rescore_entries_ok w v s l tag : rep w v -> 0 <= s -> 0 <= l -> s + l <= na ->
    (forall r, In r (seg (me v) s l) -> 0 <= r < nr) ->
    (forall r, In r (seg (me v) s l) -> 0 <= r2 v r -> tag <= r2 v r) ->
    exists w' m h, ofold (rescore_entry n tag) (zrange s (s + l)) (w, s, 0, 0) =
        Done (w', s + zlen (filter (aliver v) (seg (me v) s l)), h,
              Z.min (zsum (fun r => r2 v r - tag) (filter (aliver v) (seg (me v) s l))) n) /\
      rep w' (up_me v m) /\ seg m s (zlen (filter (aliver v) (seg (me v) s l))) = filter (aliver v) (seg (me v) s l) /\
      (forall i, ~ (s <= i < s + l) -> m i = me v i) /\ (forall i, 0 <= me v i -> 0 <= m i).
  Proof.
    intros R Hs Hl Hn Hr Ht.
    destruct (zloop (fun i st => exists w' e h sc m, st = (w', e, h, sc) /\ rep w' (up_me v m) /\ compacted (aliver v) (me v) s s i m e /\
        sc = Z.min (zsum (fun r => r2 v r - tag) (filter (aliver v) (seg (me v) s (i - s)))) n)
      (rescore_entry n tag) s (s + l)) with (s := (w, s, 0, 0)) as (st' & E & w' & e & h & sc & m & -> & R' & C & ->).
    - lia.
    - intros i st Hi (wi & e & h & sc & m & -> & Ri & C & ->). unfold rescore_entry.
      pose proof (compacted_bound _ _ _ _ _ _ _ (proj1 Hi) C) as Be.
      rewrite (mem_at_ok _ _ _ _ _ _ Ri) by lia. cbn [obind up_me me].
      rewrite (compacted_here _ _ _ _ _ _ _ i (proj1 Hi) (Z.le_refl s) C) by lia.
      assert (Ix : In (me v i) (seg (me v) s l)) by (apply In_seg; exists i; auto). pose proof (Hr _ Ix) as Hx.
      rewrite (row_at_ok _ _ _ _ _ _ Ri) by lia. cbn [obind vrow rw_shared2 up_me r2].
      replace (i + 1 - s) with (i - s + 1) by lia. rewrite seg_snoc by lia. replace (s + (i - s)) with i by lia.
      rewrite filter_app. cbn [filter]. change (aliver v (me v i)) with (alive (r2 v (me v i))).
      destruct (alive (r2 v (me v i))) eqn:A; cbn [negb].
      + destruct (set_mem_ok _ _ _ wi _ e (me v i) Ri) as (w1 & E1 & R1); [lia|]. rewrite E1. cbn [obind]. vsimpl R1.
        eexists. split; [reflexivity|]. do 5 eexists. split; [reflexivity|]. split; [exact R1|]. split.
        * apply compacted_keep; auto; lia.
        * rewrite zsum_app, zsum_cons. apply alive_true in A. pose proof (Ht _ Ix A) as Ht0.
          assert (0 <= zsum (fun r => r2 v r - tag) (filter (aliver v) (seg (me v) s (i - s)))).
          { apply zsum_nonneg. intros r Hrr. apply filter_In in Hrr. destruct Hrr as (Hrr & Al). apply alive_true in Al.
            assert (In r (seg (me v) s l)) by (apply In_seg; apply In_seg in Hrr; destruct Hrr as (j & Hj & Ej); exists j; split; [lia|auto]).
            specialize (Ht r H Al). lia. }
          change (zsum (fun r => r2 v r - tag) []) with 0. lia.
      + eexists. split; [reflexivity|]. do 5 eexists. split; [reflexivity|]. split; [exact Ri|]. split.
        * apply compacted_skip; auto; lia.
        * now rewrite app_nil_r.
    - exists w, s, 0, 0, (me v). split; [reflexivity|]. split; [destruct v; exact R|]. split; [apply compacted_start|].
      rewrite seg_nil by lia. cbn. lia.
    - replace (s + l - s) with l in E by lia. pose proof (compacted_seg _ _ _ _ _ _ _ Hl C) as Sg. pose proof C as (Ce & _). replace (s + l - s) with l in Ce by lia.
      exists w', m, h. rewrite <- Ce. split; [exact E|]. split; [exact R'|]. split.
      + rewrite <- Sg. f_equal. rewrite Sg. lia.
      + split.
        * intros i Hi. apply (compacted_out _ _ _ _ _ _ _ i C). pose proof (compacted_bound _ _ s s (s + l) _ _ ltac:(lia) C). lia.
        * intros i Hi. destruct C as (_ & C). rewrite C. destruct ((s <=? i) && (i <? e)); auto.
          unfold znth. destruct (i - s <? 0); [lia|].
          destruct (nth_in_or_default (Z.to_nat (i - s)) (filter (aliver v) (seg (me v) s (s + l - s))) 0) as [X|X]; [|lia].
          apply filter_In in X. destruct X as (X & _). replace (s + l - s) with l in X by lia. apply Hr in X. replace (s + l - s) with l in * by lia. lia.
  Qed.

  Section Columns.
    Variables (v : view) (tag B a deg0 k0 : Z) (P : list Z) (D : Z -> list Z).
    Hypothesis NP : NoDup P.
    Hypothesis HP : forall c, In c P -> 0 <= c < n /\ 0 <= cs v c /\ 0 <= cl v c /\ cs v c + cl v c <= B /\ 1 <= c1 v c /\
      forall r, In r (crows v c) -> 0 <= r < nr /\ (0 <= r2 v r -> tag <= r2 v r).
    Hypothesis Hap : forall c c', In c P -> In c' P -> c <> c' -> cs v c + cl v c <= cs v c' \/ cs v c' + cl v c' <= cs v c.
    Hypothesis HB : B <= a.
    Hypothesis Ha : 0 <= a /\ a + zlen P <= na.
    Hypothesis Hs : seg (me v) a (zlen P) = P.
    Hypothesis HL : lists n (c3 v) (c4 v) (he v) D nowhere.
    Hypothesis HD : forall t c, In c (D t) -> ~ In c P.

    Definition gone c : bool := zlen (kept v c) =? 0.
    Definition score_of c : Z := Z.min (zsum (fun r => r2 v r - tag) (kept v c)) n.

    Record rescored (pre : list Z) (deg k : Z) (fs fl f2 m : Z -> Z) : Prop := {
      rc_deg : deg = deg0 - zsum (c1 v) (filter gone pre);
      rc_k : k = k0 + zsum (c1 v) (filter gone pre);
      rc_in : forall c, In c pre -> fl c = zlen (kept v c) /\ seg m (cs v c) (fl c) = kept v c;
      rc_gone : forall c, In c pre -> gone c = true -> fs c = -1 /\ k0 <= f2 c /\ f2 c + c1 v c <= k;
      rc_stay : forall c, In c pre -> gone c = false -> fs c = cs v c /\ f2 c = score_of c;
      rc_out : forall c, ~ In c pre -> fs c = cs v c /\ fl c = cl v c /\ f2 c = c2 v c;
      rc_apart : forall c c', In c pre -> In c' pre -> gone c = true -> gone c' = true -> c <> c' ->
        f2 c + c1 v c <= f2 c' \/ f2 c' + c1 v c' <= f2 c;
      rc_mem : forall i, (forall c, In c pre -> ~ (cs v c <= i < cs v c + cl v c)) -> m i = me v i;
      rc_nn : forall i, 0 <= me v i -> 0 <= m i
    }.

    (** Lines 973-1022 *)
    Lemma rescore_ok w : rep w v ->
      exists w' deg k fs fl f2 f3 f4 m fh Bk,
        ofold (rescore_column n tag) (zrange a (a + zlen P)) (w, deg0, k0) = Done (w', deg, k) /\
        rep w' (View (rs v) (rl v) (r1 v) (r2 v) fs fl (c1 v) f2 f3 f4 m fh) /\ rescored P deg k fs fl f2 m /\
        lists n f3 f4 fh D Bk /\ (forall t x, In x (Bk t) -> In x P /\ gone x = false /\ f3 x = t) /\
        (forall x, In x P -> gone x = false -> 0 <= f3 x <= n).
    Proof.
      intros R.
      destruct (seg_loop (fun pre st => exists fs fl f2 f3 f4 m fh Bk,
        rep (fst (fst st)) (View (rs v) (rl v) (r1 v) (r2 v) fs fl (c1 v) f2 f3 f4 m fh) /\ rescored pre (snd (fst st)) (snd st) fs fl f2 m /\
        lists n f3 f4 fh D Bk /\ (forall t x, In x (Bk t) -> In x pre /\ gone x = false /\ f3 x = t) /\
        (forall x, In x pre -> gone x = false -> exists t, 0 <= t <= n /\ In x (Bk t)))
        (rescore_column n tag) (me v) a (zlen P)) with (st := (w, deg0, k0))
        as (((w' & deg) & k) & E & fs & fl & f2 & f3 & f4 & m & fh & Bk & R' & RC & L & H1 & H2).
      - apply zlen_nonneg.
      - intros i pre post ((wi & deg) & k) Hi Es _ (fs & fl & f2 & f3 & f4 & m & fh & Bk & Ri & RC & L & H1 & H2). cbn [fst snd] in *.
        rewrite Hs in Es. set (c := me v i) in *.
        assert (Hc : In c P) by (rewrite Es; apply in_app_iff; right; now left).
        assert (Npre : ~ In c pre) by (rewrite Es in NP; now apply NoDup_mid in NP).
        assert (Sub : forall x, In x pre -> In x P) by (intros x Hx; rewrite Es; apply in_app_iff; auto).
        destruct (HP c Hc) as (A1 & A2 & A3 & A4 & A5 & A6). destruct (rc_out _ _ _ _ _ _ _ RC c Npre) as (O1 & O2 & O3).
        unfold rescore_column. rewrite (mem_at_ok _ _ _ _ _ _ Ri) by (cbn [me]; lia). cbn [obind me].
        rewrite (rc_mem _ _ _ _ _ _ _ RC i) by (intros x Hx; apply Sub in Hx; destruct (HP x Hx) as (_ & _ & _ & X & _); lia). fold c.
        rewrite (col_at_ok _ _ _ _ _ _ Ri) by lia. cbn [obind vcol cl_start cl_length cl_shared1 cs cl c1]. rewrite O1, O2.
        assert (Sg : seg m (cs v c) (cl v c) = crows v c).
        { apply seg_ext. intros j Hj. apply (rc_mem _ _ _ _ _ _ _ RC). intros x Hx X. assert (x <> c) by congruence.
          destruct (Hap x c (Sub x Hx) Hc H); lia. }
        destruct (rescore_entries_ok wi _ (cs v c) (cl v c) tag Ri) as (w1 & m1 & h & E1 & R1 & S1 & M1 & Nn); auto; try lia; cbn [me r2].
        { intros r Hr. rewrite Sg in Hr. now apply A6. } { intros r Hr. rewrite Sg in Hr. now apply A6. }
        unfold aliver in E1, S1. cbn [me r2] in E1, S1, M1, Nn. rewrite Sg in E1, S1. change (filter (fun r => alive (r2 v r)) (crows v c)) with (kept v c) in E1, S1.
        rewrite E1. cbn [obind]. vsimpl R1. rewrite Z.add_simpl_l.
        destruct (set_cl _ _ _ w1 _ c (zlen (kept v c)) R1) as (w2 & E2 & R2); [lia|]. rewrite E2. cbn [obind]. vsimpl R2.
        assert (In' : forall c', In c' (pre ++ [c]) -> fupd fl c (zlen (kept v c)) c' = zlen (kept v c') /\ seg m1 (cs v c') (fupd fl c (zlen (kept v c)) c') = kept v c').
        { intros c' Hc'. apply in_app_iff in Hc'. destruct (Z.eq_dec c c') as [<-|N].
          - rewrite fupd_same. auto.
          - rewrite fupd_other by auto. destruct Hc' as [Hc'|[Hc'|[]]]; [|contradiction].
            destruct (rc_in _ _ _ _ _ _ _ RC c' Hc') as (X1 & X2). split; auto. rewrite <- X2. apply seg_ext. intros j Hj. apply M1.
            destruct (HP c' (Sub _ Hc')) as (Y1 & Y2 & Y3 & Y4 & _). pose proof (zlen_filter (aliver v) (crows v c')) as Z1.
            fold (kept v c') in Z1. unfold crows in Z1. rewrite seg_length in Z1 by lia. destruct (Hap c c' Hc (Sub _ Hc') N); lia. }
        assert (Out' : forall i, (forall c', In c' (pre ++ [c]) -> ~ (cs v c' <= i < cs v c' + cl v c')) -> m1 i = me v i).
        { intros j Hj. rewrite M1 by (apply Hj; apply in_app_iff; cbn; auto). apply (rc_mem _ _ _ _ _ _ _ RC). intros c' Hc'. apply Hj. apply in_app_iff; auto. }
        assert (Dc : forall t, ~ In c (D t)) by (intros t X; exact (HD t c X Hc)).
        assert (Bc : forall t, ~ In c (Bk t)) by (intros t X; apply H1 in X; tauto).
        destruct (zlen (kept v c) =? 0) eqn:G; fold (gone c) in G.
        + destruct (set_col_ok _ _ _ w2 _ c (fun col => cl_set_start dead_principal (cl_set_shared2 k col))
            (View (rs v) (rl v) (r1 v) (r2 v) (fupd fs c (-1)) (fupd fl c (zlen (kept v c))) (c1 v) (fupd f2 c k) f3 f4 m1 fh) R2) as (w3 & E3 & R3).
          { lia. } { intros j. unfold vcol. cbn. unfold fupd. destruct (Z.eqb_spec c j) as [<-|]; [rewrite !Z.eqb_refl|]; reflexivity. } { reflexivity. } { reflexivity. } { reflexivity. }
          rewrite E3. cbn [obind]. eexists. split; [reflexivity|]. cbn [fst snd]. do 8 eexists. split; [exact R3|].
          assert (Ef : zsum (c1 v) (filter gone (pre ++ [c])) = zsum (c1 v) (filter gone pre) + c1 v c).
          { rewrite filter_app, zsum_app. cbn [filter]. rewrite G. cbn. lia. }
          split; [|split; [exact L|split]].
          * constructor.
            -- rewrite Ef. rewrite (rc_deg _ _ _ _ _ _ _ RC). lia.
            -- rewrite Ef. rewrite (rc_k _ _ _ _ _ _ _ RC). lia.
            -- exact In'.
            -- intros c' Hc' G'. apply in_app_iff in Hc'. destruct (Z.eq_dec c c') as [<-|N].
               ++ rewrite !fupd_same. split; auto. assert (0 <= zsum (c1 v) (filter gone pre)).
                  { apply zsum_nonneg. intros x Hx. apply filter_In in Hx. destruct Hx as (Hx & _). destruct (HP x (Sub x Hx)) as (_ & _ & _ & _ & X & _). lia. }
                  rewrite (rc_k _ _ _ _ _ _ _ RC). lia.
               ++ rewrite !fupd_other by auto. destruct Hc' as [Hc'|[Hc'|[]]]; [|contradiction]. destruct (rc_gone _ _ _ _ _ _ _ RC c' Hc' G') as (X1 & X2 & X3). lia.
            -- intros c' Hc' G'. apply in_app_iff in Hc'. assert (N : c <> c') by congruence. rewrite !fupd_other by auto.
               destruct Hc' as [Hc'|[Hc'|[]]]; [|contradiction]. exact (rc_stay _ _ _ _ _ _ _ RC c' Hc' G').
            -- intros c' Hc'. rewrite in_app_iff in Hc'. cbn in Hc'. rewrite !fupd_other by tauto. apply (rc_out _ _ _ _ _ _ _ RC). tauto.
            -- intros x y Hx Hy Gx Gy N. apply in_app_iff in Hx. apply in_app_iff in Hy. unfold fupd.
               destruct (Z.eqb_spec c x) as [<-|Nx], (Z.eqb_spec c y) as [<-|Ny]; try contradiction.
               ++ destruct Hy as [Hy|[Hy|[]]]; [|contradiction]. destruct (rc_gone _ _ _ _ _ _ _ RC y Hy Gy) as (X1 & X2 & X3). lia.
               ++ destruct Hx as [Hx|[Hx|[]]]; [|contradiction]. destruct (rc_gone _ _ _ _ _ _ _ RC x Hx Gx) as (X1 & X2 & X3). lia.
               ++ destruct Hx as [Hx|[Hx|[]]]; [|contradiction]. destruct Hy as [Hy|[Hy|[]]]; [|contradiction]. now apply (rc_apart _ _ _ _ _ _ _ RC).
            -- exact Out'.
            -- intros j Hj. apply Nn. now apply (rc_nn _ _ _ _ _ _ _ RC).
          * intros t x Hx. apply H1 in Hx. rewrite in_app_iff. tauto.
          * intros x Hx Gx. apply in_app_iff in Hx. destruct Hx as [Hx|[<-|[]]]; [auto|congruence].
        + destruct (set_c2 _ _ _ w2 _ c (score_of c) R2) as (w3 & E3 & R3); [lia|].
          change (Z.min (zsum (fun r => r2 v r - tag) (kept v c)) n) with (score_of c). rewrite E3. cbn [obind]. vsimpl R3.
          destruct (hash_ok nr n na n0 w3 _ D Bk c (h mod (n + 1)) R3 L A1) as (w4 & g3 & g4 & gh & E4 & R4 & L4 & H4); auto.
          { pose proof (Z.mod_pos_bound h (n + 1) ltac:(lia)). lia. }
          { cbn [c3]. intros t x Hx. apply H1 in Hx. tauto. }
          rewrite E4. cbn [obind]. eexists. split; [reflexivity|]. unfold up_lists in R4. cbn [rs rl r1 r2 cs cl c1 c2 c3 c4 me he] in R4. cbn [fst snd]. do 8 eexists. split; [exact R4|].
          assert (Ef : filter gone (pre ++ [c]) = filter gone pre).
          { rewrite filter_app. cbn [filter]. rewrite G. now rewrite app_nil_r. }
          split; [|split; [exact L4|split]].
          * constructor.
            -- rewrite Ef. exact (rc_deg _ _ _ _ _ _ _ RC).
            -- rewrite Ef. exact (rc_k _ _ _ _ _ _ _ RC).
            -- exact In'.
            -- intros c' Hc' G'. apply in_app_iff in Hc'. assert (N : c <> c') by congruence. rewrite !fupd_other by auto.
               destruct Hc' as [Hc'|[Hc'|[]]]; [|contradiction]. exact (rc_gone _ _ _ _ _ _ _ RC c' Hc' G').
            -- intros c' Hc' G'. apply in_app_iff in Hc'. destruct (Z.eq_dec c c') as [<-|N].
               ++ rewrite !fupd_same. auto.
               ++ rewrite !fupd_other by auto. destruct Hc' as [Hc'|[Hc'|[]]]; [|contradiction]. exact (rc_stay _ _ _ _ _ _ _ RC c' Hc' G').
            -- intros c' Hc'. rewrite in_app_iff in Hc'. cbn in Hc'. rewrite !fupd_other by tauto. apply (rc_out _ _ _ _ _ _ _ RC). tauto.
            -- intros x y Hx Hy Gx Gy N. apply in_app_iff in Hx. apply in_app_iff in Hy. rewrite !fupd_other by congruence.
               destruct Hx as [Hx|[Hx|[]]]; [|congruence]. destruct Hy as [Hy|[Hy|[]]]; [|congruence]. now apply (rc_apart _ _ _ _ _ _ _ RC).
            -- exact Out'.
            -- intros j Hj. apply Nn. now apply (rc_nn _ _ _ _ _ _ _ RC).
          * intros t x Hx. pose proof (H4 t x Hx) as X. unfold dupd in Hx. rewrite in_app_iff.
            destruct (Z.eqb_spec (h mod (n + 1)) t) as [Et|Nt].
            -- destruct Hx as [<-|Hx]; [cbn; auto|]. apply H1 in Hx. tauto.
            -- apply H1 in Hx. tauto.
          * intros x Hx Gx. apply in_app_iff in Hx. pose proof (Z.mod_pos_bound h (n + 1) ltac:(lia)). destruct Hx as [Hx|[<-|[]]].
            -- destruct (H2 x Hx Gx) as (t & Ht & It). exists t. split; auto. unfold dupd. destruct (Z.eqb_spec (h mod (n + 1)) t) as [<-|]; [now right|auto].
            -- exists (h mod (n + 1)). split; [lia|]. unfold dupd. rewrite Z.eqb_refl. now left.
      - exists (cs v), (cl v), (c2 v), (c3 v), (c4 v), (me v), (he v), nowhere. cbn [fst snd]. split; [destruct v; exact R|]. split.
        + constructor; cbn; try lia; try (intros c []); auto; intros ? ? [].
        + split; [exact HL|]. split; [intros t x []|intros x []].
      - rewrite Hs in *. exists w', deg, k, fs, fl, f2, f3, f4, m, fh, Bk. split; [exact E|]. cbn [fst snd] in *. split; [exact R'|]. split; [exact RC|]. split; [exact L|].
        split; [exact H1|]. intros x Hx Gx. destruct (H2 x Hx Gx) as (t & Ht & It). apply H1 in It. destruct It as (_ & _ & <-). exact Ht.
    Qed.
  End Columns.

  (* ----- writing the pivot row ----- *)

  Section Finish.
    Variables (v : view) (B a k pr deg ms0 : Z) (P : list Z) (D : Z -> list Z).
    Definition stays c := In c P /\ 0 <= cs v c.
    Definition final_score c : Z := Z.min (c2 v c + deg - c1 v c) (n - k - c1 v c).
    Hypothesis NP : NoDup P.
    Hypothesis HP : forall c, In c P -> 0 <= c < n.
    Hypothesis Hpr : P <> [] -> 0 <= pr.
    Hypothesis HQ : forall c, stays c -> 0 <= cl v c /\ cs v c + cl v c < B /\ 0 <= final_score c <= n.
    Hypothesis Hap : forall c c', stays c -> stays c' -> c <> c' -> cs v c + cl v c < cs v c' \/ cs v c' + cl v c' < cs v c.
    Hypothesis HB : B <= a.
    Hypothesis Ha : 0 <= a /\ a + zlen P <= na.
    Hypothesis Hs : seg (me v) a (zlen P) = P.
    Hypothesis HL : lists n (c3 v) (c4 v) (he v) D nowhere.
    Hypothesis HD : forall t c, In c (D t) -> ~ In c P.

    Record finished (pre : list Z) (fl f2 m : Z -> Z) (D' : Z -> list Z) (ms : Z) : Prop := {
      fn_in : forall c, In c pre -> 0 <= cs v c -> fl c = cl v c + 1 /\ f2 c = final_score c /\ seg m (cs v c) (cl v c + 1) = crows v c ++ [pr];
      fn_out : forall c, ~ (In c pre /\ 0 <= cs v c) -> fl c = cl v c /\ f2 c = c2 v c;
      fn_mem : forall i, i < a -> (forall c, In c pre -> 0 <= cs v c -> i <> cs v c + cl v c) -> m i = me v i;
      fn_row : seg m a (zlen (filter (alivec v) pre)) = filter (alivec v) pre;
      fn_rest : forall i, a + zlen pre <= i -> m i = me v i;
      fn_nn : forall i, 0 <= me v i -> 0 <= m i;
      fn_lists : forall t x, In x (D' t) <-> In x (D t) \/ (In x pre /\ 0 <= cs v x /\ final_score x = t);
      fn_min : ms <= ms0 /\ (forall c, In c pre -> 0 <= cs v c -> ms <= final_score c);
      fn_min_in : ms = ms0 \/ exists c, In c pre /\ 0 <= cs v c /\ ms = final_score c
    }.

    (** Lines 1025-1066 *)
    Lemma finish_ok w : rep w v ->
      exists w' fl f2 f3 f4 m fh D' ms,
        ofold (finish_column n k pr deg) (zrange a (a + zlen P)) (w, a, ms0) = Done (w', a + zlen (filter (alivec v) P), ms) /\
        rep w' (View (rs v) (rl v) (r1 v) (r2 v) (cs v) fl (c1 v) f2 f3 f4 m fh) /\ finished P fl f2 m D' ms /\
        lists n f3 f4 fh D' nowhere.
    Proof.
      intros R.
      destruct (seg_loop (fun pre st => snd (fst st) = a + zlen (filter (alivec v) pre) /\ exists fl f2 f3 f4 m fh D',
        rep (fst (fst st)) (View (rs v) (rl v) (r1 v) (r2 v) (cs v) fl (c1 v) f2 f3 f4 m fh) /\ finished pre fl f2 m D' (snd st) /\
        lists n f3 f4 fh D' nowhere)
        (finish_column n k pr deg) (me v) a (zlen P)) with (st := (w, a, ms0))
        as (((w' & e) & ms) & E & Ee & fl & f2 & f3 & f4 & m & fh & D' & R' & F & L).
      - apply zlen_nonneg.
      - intros i pre post ((wi & e) & ms) Hi Es Lp (Ee & fl & f2 & f3 & f4 & m & fh & D' & Ri & F & L). cbn [fst snd] in *. subst e.
        rewrite Hs in Es. set (c := me v i) in *.
        assert (Hc : In c P) by (rewrite Es; apply in_app_iff; right; now left).
        assert (Npre : ~ In c pre) by (rewrite Es in NP; now apply NoDup_mid in NP).
        assert (Sub : forall x, In x pre -> In x P) by (intros x Hx; rewrite Es; apply in_app_iff; auto).
        pose proof (HP c Hc) as A1. destruct (fn_out _ _ _ _ _ _ F c ltac:(tauto)) as (O1 & O2).
        pose proof (zlen_filter (alivec v) pre) as Zf. pose proof (zlen_nonneg (filter (alivec v) pre)) as Zn.
        unfold finish_column. rewrite (mem_at_ok _ _ _ _ _ _ Ri) by (cbn [me]; lia). cbn [obind me].
        rewrite (fn_rest _ _ _ _ _ _ F) by lia. fold c. rewrite (col_at_ok _ _ _ _ _ _ Ri) by lia. cbn [obind vcol cl_start cl_length cl_shared1 cl_shared2 cs cl c1 c2].
        destruct (alive (cs v c)) eqn:A; cbn [negb].
        2:{ eexists. split; [reflexivity|]. cbn [fst snd].
            assert (Ef : filter (alivec v) (pre ++ [c]) = filter (alivec v) pre).
            { rewrite filter_app. cbn [filter]. unfold alivec at 2. rewrite A. now rewrite app_nil_r. }
            rewrite Ef. apply alive_false in A. split; [reflexivity|].
            exists fl, f2, f3, f4, m, fh, D'. split; [exact Ri|]. split; [|exact L].
            assert (Q : forall x, In x (pre ++ [c]) -> 0 <= cs v x -> In x pre).
            { intros x Hx X. apply in_app_iff in Hx. destruct Hx as [|[<-|[]]]; auto. lia. }
            constructor.
            - intros x Hx X. apply (fn_in _ _ _ _ _ _ F); auto.
            - intros x Hx. apply (fn_out _ _ _ _ _ _ F). rewrite in_app_iff in Hx. tauto.
            - intros j Hj Hx. apply (fn_mem _ _ _ _ _ _ F); auto. intros x Y X. apply Hx; auto. apply in_app_iff; auto.
            - rewrite Ef. exact (fn_row _ _ _ _ _ _ F).
            - intros j Hj. rewrite zlen_app, zlen_cons, zlen_nil in Hj. apply (fn_rest _ _ _ _ _ _ F). lia.
            - exact (fn_nn _ _ _ _ _ _ F).
            - intros t x. rewrite (fn_lists _ _ _ _ _ _ F). rewrite in_app_iff. split; [tauto|]. intros [X|(X & Y & Z)]; auto.
              right. split; auto. apply Q; auto. apply in_app_iff. auto.
            - split; [apply (fn_min _ _ _ _ _ _ F)|]. intros x Hx X. apply (fn_min _ _ _ _ _ _ F); auto.
            - destruct (fn_min_in _ _ _ _ _ _ F) as [X|(x & X1 & X2)]; [auto|]. right. exists x. rewrite in_app_iff. auto. }
        apply alive_true in A. assert (St : stays c) by (split; auto). destruct (HQ c St) as (B1 & B2 & B3). rewrite O1, O2.
        destruct (set_mem_ok _ _ _ wi _ (a + zlen (filter (alivec v) pre)) c Ri) as (w1 & E1 & R1); [lia|]. rewrite E1. cbn [obind]. vsimpl R1.
        destruct (set_mem_ok _ _ _ w1 _ (cs v c + cl v c) pr R1) as (w2 & E2 & R2); [lia|]. rewrite E2. cbn [obind]. vsimpl R2.
        destruct (set_cl _ _ _ w2 _ c (cl v c + 1) R2) as (w3 & E3 & R3); [lia|]. rewrite E3. cbn [obind]. vsimpl R3.
        fold (final_score c). destruct (set_c2 _ _ _ w3 _ c (final_score c) R3) as (w4 & E4 & R4); [lia|]. rewrite E4. cbn [obind]. vsimpl R4.
        assert (Dc : forall t, ~ In c (D' t)).
        { intros t X. apply (fn_lists _ _ _ _ _ _ F) in X. destruct X as [X|X]; [exact (HD t c X Hc)|tauto]. }
        destruct (link_ok nr n na w4 _ D' c (final_score c) R4 L A1 B3 Dc) as (w5 & g3 & g4 & gh & E5 & R5 & L5).
        rewrite E5. cbn [obind]. unfold up_lists in R5. cbn [rs rl r1 r2 cs cl c1 c2 c3 c4 me he] in R5.
        eexists. split; [reflexivity|]. cbn [fst snd].
        assert (Ef : filter (alivec v) (pre ++ [c]) = filter (alivec v) pre ++ [c]).
        { rewrite filter_app. cbn [filter]. unfold alivec at 2. now rewrite (proj2 (alive_true _) A). }
        rewrite Ef. rewrite zlen_app, zlen_cons, zlen_nil. split; [lia|].
        do 7 eexists. split; [exact R5|]. split; [|exact L5].
        assert (MM : forall j, j <> cs v c + cl v c -> j <> a + zlen (filter (alivec v) pre) ->
          fupd (fupd m (a + zlen (filter (alivec v) pre)) c) (cs v c + cl v c) pr j = m j).
        { intros j N1 N2. rewrite !fupd_other by auto. reflexivity. }
        constructor.
        + intros x Hx X. apply in_app_iff in Hx. destruct (Z.eq_dec c x) as [<-|N].
          * rewrite !fupd_same. split; auto. split; auto. rewrite seg_snoc by lia. rewrite fupd_same. f_equal.
            unfold crows. apply seg_ext. intros j Hj. rewrite MM by lia. apply (fn_mem _ _ _ _ _ _ F); [lia|].
            intros y Hy Y. assert (y <> c) by congruence. pose proof (HQ y (conj (Sub y Hy) Y)) as Qy. destruct (Hap y c (conj (Sub y Hy) Y) St H); lia.
          * rewrite !fupd_other by auto. destruct Hx as [Hx|[Hx|[]]]; [|contradiction].
            destruct (fn_in _ _ _ _ _ _ F x Hx X) as (X1 & X2 & X3). split; auto. split; auto. rewrite <- X3. apply seg_ext.
            intros j Hj. pose proof (HQ x (conj (Sub x Hx) X)) as Y. apply MM; [|lia]. destruct (Hap c x St (conj (Sub x Hx) X) N); lia.
        + intros x Hx. rewrite in_app_iff in Hx. cbn in Hx. assert (c <> x) by (intros <-; tauto). rewrite !fupd_other by auto. apply (fn_out _ _ _ _ _ _ F). tauto.
        + intros j Hj Hx. rewrite MM; [|apply Hx; [apply in_app_iff; cbn; auto|auto]|lia]. apply (fn_mem _ _ _ _ _ _ F); auto.
          intros x Y X. apply Hx; auto. apply in_app_iff; auto.
        + rewrite Ef. rewrite zlen_app, zlen_cons, zlen_nil, Z.add_0_r. rewrite seg_snoc by lia. rewrite fupd_other by lia. rewrite fupd_same. f_equal.
          etransitivity; [|exact (fn_row _ _ _ _ _ _ F)]. apply seg_ext. intros j Hj. apply MM; lia.
        + intros j Hj. rewrite zlen_app, zlen_cons, zlen_nil in Hj. rewrite MM by lia. apply (fn_rest _ _ _ _ _ _ F). lia.
        + intros j Hj. pose proof (Hpr ltac:(intros X; rewrite X in Hc; destruct Hc)). unfold fupd. destruct (cs v c + cl v c =? j); [auto|].
          destruct (_ =? j); [lia|]. now apply (fn_nn _ _ _ _ _ _ F).
        + intros t x. unfold dupd. rewrite in_app_iff. cbn. destruct (Z.eqb_spec (final_score c) t) as [<-|Nt].
          * cbn. rewrite (fn_lists _ _ _ _ _ _ F). split.
            -- intros [<-|[X|(X & Y & Z)]]; auto.
            -- intros [X|([X|[<-|[]]] & Y & Z)]; auto.
          * rewrite (fn_lists _ _ _ _ _ _ F). split; [tauto|]. intros [X|([X|[<-|[]]] & Y & Z)]; auto. contradiction.
        + destruct (fn_min _ _ _ _ _ _ F) as (M1 & M2). split; [lia|]. intros x Hx X. apply in_app_iff in Hx. destruct Hx as [Hx|[<-|[]]]; [specialize (M2 x Hx X); lia|lia].
        + destruct (Z.min_spec ms (final_score c)) as [(_ & ->)|(_ & ->)].
          * destruct (fn_min_in _ _ _ _ _ _ F) as [X|(x & X1 & X2)]; [auto|]. right. exists x. rewrite in_app_iff. auto.
          * right. exists c. rewrite in_app_iff. cbn. auto.
      - cbn [fst snd]. split; [cbn; lia|]. exists (cl v), (c2 v), (c3 v), (c4 v), (me v), (he v), D. split; [destruct v; exact R|]. split; [|exact HL].
        constructor; cbn; auto.
        + intros c [].
        + apply seg_nil. lia.
        + intros t x. tauto.
        + split; [lia|intros c []].
      - cbn [fst snd] in *. rewrite Hs in *. subst e. exists w', fl, f2, f3, f4, m, fh, D', ms. auto.
    Qed.
  End Finish.
End Rescore.
