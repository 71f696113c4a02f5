(** The invariant of the elimination loop (colamd.rs 859-1072); choosing the pivot and
    collecting garbage keep it. *)
From Coq Require Import List Arith ZArith Lia Bool Permutation.
From Verif Require Import Outcome Lib ModelColamd Spec_Colamd Proofs_Zlist Proofs_Order Proofs_View Proofs_DegreeLists Proofs_Absorb Proofs_Collect Proofs_Gather Proofs_Merge.
Import ListNotations.
Local Open Scope Z_scope.

Lemma zsum_swap (inc : Z -> Z -> bool) R C :
  zsum (fun r => zlen (filter (inc r) C)) R = zsum (fun c => zlen (filter (fun r => inc r c) R)) C.
Proof.
  induction R as [|r R IH].
  - cbn [zsum fold_right filter]. symmetry. induction C as [|c C IH]; [reflexivity|]. rewrite zsum_cons, IH. reflexivity.
  - rewrite zsum_cons, IH. clear IH. induction C as [|c C IH]; [reflexivity|]. rewrite !zsum_cons. cbn [filter] in *. cbv beta in *.
    destruct (inc r c); rewrite ?zlen_cons; lia.
Qed.
Lemma zlen_same {A} (l l' : list A) : NoDup l -> NoDup l' -> (forall x, In x l <-> In x l') -> zlen l = zlen l'.
Proof.
  intros N N' H. unfold zlen. f_equal. apply Nat.le_antisymm; apply NoDup_incl_length; auto; intros x; apply H.
Qed.

Section Invariant.
  Variables nr n na nnz n2 : Z.
  Hypothesis nr0 : 0 <= nr.
  Hypothesis n0 : 0 <= n.
  Hypothesis nnz0 : 0 <= nnz.
  Notation rep := (rep nr n na).
  Notation layout := (layout nr n na).
  Notation liver := (liver nr).
  Notation livec := (livec n).

  (** [ex]: columns whose score no longer counts *)
  Record inv (ex : Z -> Prop) (v : view) (D : Z -> list Z) (rt : Z -> Z) (B pf k ms md tag : Z) : Prop := {
    in_lay : layout v B pf;
    in_B : B <= nnz;
    in_col : forall c, livec v c -> 1 <= cl v c /\ NoDup (crows v c) /\ 1 <= c1 v c;
    in_cr : forall c r, livec v c -> In r (crows v c) -> liver v r /\ In c (rcols v r);
    in_row : forall r, liver v r -> NoDup (rcols v r) /\ forall c, In c (rcols v r) -> 0 <= c < n;
    in_rc : forall r c, liver v r -> livec v c -> In c (rcols v r) -> In r (crows v c);
    in_deg : forall r, liver v r -> r1 v r = zsum (c1 v) (filter (alivec v) (rcols v r)) /\ 1 <= r1 v r <= md;
    in_tag : 1 <= tag;
    in_mark : forall r, 0 <= r < nr -> r2 v r < tag;
    in_ms : 0 <= ms;
    in_score : forall c, livec v c -> ~ ex c -> ms <= c2 v c <= n;
    in_nbr : forall c L, livec v c -> ~ ex c -> NoDup L ->
      (forall x, In x L -> livec v x /\ x <> c /\ exists r, In r (crows v c) /\ In x (rcols v r)) -> zsum (c1 v) L <= c2 v c;
    in_lists : lists n (c3 v) (c4 v) (he v) D nowhere;
    in_D : forall s c, In c (D s) <-> livec v c /\ ~ ex c /\ c2 v c = s;
    in_total : zsum (c1 v) (cols_upto v n) = n2 - k;
    in_k : 0 <= k;
    in_n2 : n2 <= n;
    in_forest : forest n (cs v) (c1 v) (c2 v) rt;
    in_places : places n (cs v) (c1 v) (c2 v) k n2
  }.

  Lemma in_upto v c : In c (cols_upto v n) <-> livec v c.
  Proof. unfold cols_upto, alivec, Proofs_Collect.livec. rewrite filter_In, In_zrange, alive_true. tauto. Qed.
  Lemma upto_NoDup v : NoDup (cols_upto v n).
  Proof. apply NoDup_filter, zrange_NoDup. Qed.

  Section One.
    Variables (ex : Z -> Prop) (v : view) (D : Z -> list Z) (rt : Z -> Z) (B pf k ms md tag : Z).
    Hypothesis I : inv ex v D rt B pf k ms md tag.

    Lemma inv_entries : entries nr n v.
    Proof.
      constructor.
      - intros c r Lc Hr. destruct (in_cr _ _ _ _ _ _ _ _ _ _ I c r Lc Hr) as ((X & _) & _). exact X.
      - intros r c Lr Hc. exact (proj2 (in_row _ _ _ _ _ _ _ _ _ _ I r Lr) c Hc).
    Qed.
    Lemma inv_sum L : NoDup L -> (forall x, In x L -> livec v x) -> zsum (c1 v) L <= n2 - k.
    Proof.
      intros N H. rewrite <- (in_total _ _ _ _ _ _ _ _ _ _ I). apply zsum_incl; auto.
      - intros x Hx. apply in_upto. auto.
      - intros x Hx. apply in_upto in Hx. destruct (in_col _ _ _ _ _ _ _ _ _ _ I x Hx) as (_ & _ & X). lia.
    Qed.
    Lemma inv_count L : NoDup L -> (forall x, In x L -> livec v x) -> zlen L <= zsum (c1 v) L.
    Proof.
      intros N H. apply zsum_zlen. intros x Hx. exact (proj2 (proj2 (in_col _ _ _ _ _ _ _ _ _ _ I x (H x Hx)))).
    Qed.
    Lemma inv_kept c : livec v c -> kept v c = crows v c.
    Proof.
      intros Lc. apply filter_all. intros r Hr. apply alive_true. exact (proj2 (proj1 (in_cr _ _ _ _ _ _ _ _ _ _ I c r Lc Hr))).
    Qed.
    Lemma inv_some r : liver v r -> exists c, In c (rcols v r) /\ livec v c.
    Proof.
      intros Lr. destruct (in_deg _ _ _ _ _ _ _ _ _ _ I r Lr) as (E & X).
      destruct (filter (alivec v) (rcols v r)) as [|c l] eqn:F; [rewrite E in X; cbn in X; lia|].
      assert (H : In c (filter (alivec v) (rcols v r))) by (rewrite F; now left). apply filter_In in H. destruct H as (H1 & H2).
      exists c. split; auto. split; [exact (proj2 (in_row _ _ _ _ _ _ _ _ _ _ I r Lr) c H1)|now apply alive_true].
    Qed.
    Lemma inv_live : k < n2 -> exists c, livec v c.
    Proof.
      intros H. pose proof (in_total _ _ _ _ _ _ _ _ _ _ I) as E. destruct (cols_upto v n) as [|c l] eqn:F; [cbn in E; lia|].
      exists c. apply in_upto. rewrite F. now left.
    Qed.
    Lemma lengths_below : forall i, 0 <= i <= n ->
      zsum (cl v) (cols_upto v i) <= B /\ forall c, i <= c -> livec v c -> zsum (cl v) (cols_upto v i) <= cs v c.
    Proof.
      pose proof (in_lay _ _ _ _ _ _ _ _ _ _ I) as Ly. destruct (ly_B _ _ _ _ _ _ Ly) as (HB & _).
      intros i (Hi & Hn). revert Hn. pattern i. apply natlike_ind; auto.
      - intros _. cbn. split; [lia|]. intros c _ (_ & X). exact X.
      - intros j Hj IH Hn. destruct IH as (I1 & I2); [lia|]. unfold cols_upto. replace (Z.succ j) with (j + 1) by lia. rewrite zrange_snoc by lia.
        rewrite filter_app, zsum_app. cbn [filter]. fold (cols_upto v j). destruct (alivec v j) eqn:A.
        + apply alive_true in A. assert (Lj : livec v j) by (split; [lia|auto]). specialize (I2 j (Z.le_refl j) Lj).
          destruct (ly_col _ _ _ _ _ _ Ly j Lj). rewrite zsum_cons. change (zsum (cl v) []) with 0. split; [lia|].
          intros c Hc Lc. pose proof (ly_cols _ _ _ _ _ _ Ly j c Lj Lc ltac:(lia)). lia.
        + change (zsum (cl v) []) with 0. split; [lia|]. intros c Hc Lc. specialize (I2 c ltac:(lia) Lc). lia.
    Qed.
    Lemma inv_lengths : zsum (fun c => zlen (kept v c)) (cols_upto v n) <= B.
    Proof.
      etransitivity; [|exact (proj1 (lengths_below n ltac:(lia)))]. apply zsum_le. intros c Hc. apply in_upto in Hc.
      rewrite inv_kept by auto. unfold crows. rewrite seg_length; [lia|]. apply (ly_col _ _ _ _ _ _ (in_lay _ _ _ _ _ _ _ _ _ _ I) c Hc).
    Qed.
    (** Pairs of a live row and a live column in it, counted both ways *)
    Lemma inv_pairs dn : NoDup dn -> (forall r, In r dn <-> liver v r) ->
      zsum (fun r => zlen (keptr v r)) dn = zsum (fun c => zlen (kept v c)) (cols_upto v n).
    Proof.
      intros N H. set (inc := fun r c => memb c (rcols v r)).
      rewrite (zsum_ext _ (fun r => zlen (filter (inc r) (cols_upto v n)))).
      2:{ intros r Hr. apply H in Hr. destruct (in_row _ _ _ _ _ _ _ _ _ _ I r Hr) as (Nr & Rr). apply zlen_same.
          - now apply NoDup_filter.
          - apply NoDup_filter, upto_NoDup.
          - intros c. unfold keptr, inc. rewrite !filter_In, in_upto, memb_In. unfold alivec. rewrite alive_true. split.
            + intros (X & Y). split; auto. split; auto.
            + intros ((X & Y) & Z). auto. }
      rewrite zsum_swap. apply zsum_ext. intros c Hc. apply in_upto in Hc. rewrite inv_kept by auto. apply zlen_same.
      - now apply NoDup_filter.
      - apply (in_col _ _ _ _ _ _ _ _ _ _ I c Hc).
      - intros r. unfold inc. rewrite filter_In, H, memb_In. split.
        + intros (X & Y). exact (in_rc _ _ _ _ _ _ _ _ _ _ I r c X Hc Y).
        + apply (in_cr _ _ _ _ _ _ _ _ _ _ I c r Hc).
    Qed.

    (** Lines 876-881 *)
    Lemma gc_inv w mx : rep w v -> exists w' w'' v' B' pf' tag',
      garbage_collection nr n w pf = Done (w', pf') /\ clear_mark 0 mx nr w' = Done (w'', tag') /\ rep w'' v' /\
      inv ex v' D rt B' pf' k ms md tag' /\ pf' <= 2 * nnz /\ c1 v' = c1 v /\ c2 v' = c2 v /\ (forall c, livec v' c <-> livec v c).
    Proof.
      intros R.
      destruct (collect_ok nr n na nr0 n0 w v B pf R (in_lay _ _ _ _ _ _ _ _ _ _ I) inv_entries inv_some)
        as (w1 & pf' & B' & v1 & dn & E1 & R1 & Ly & Er1 & E1c & E2c & E3c & E4c & Eh & Lc & Cs & Cr & Lr & Rc & EB & Nd & Hd & Epf).
      destruct (clear_mark_ok nr n na nr0 w1 v1 0 mx R1) as (w2 & f2 & tag' & E2 & R2 & T1 & [(_ & _ & X)|(Et & F)]); [lia|].
      exists w1, w2, (up_r2 v1 f2), B', pf', tag'. split; [exact E1|]. split; [exact E2|]. split; [exact R2|].
      assert (HB : B' <= B) by (rewrite EB; apply inv_lengths).
      assert (Hpf : pf' <= 2 * nnz). { rewrite Epf, inv_pairs by auto. rewrite <- EB. pose proof (in_B _ _ _ _ _ _ _ _ _ _ I). lia. }
      assert (Lr2 : forall r, liver (up_r2 v1 f2) r <-> liver v r).
      { intros r. rewrite <- Lr. unfold Proofs_Collect.liver. cbn [up_r2 r2]. split; intros (X & Y); split; auto; rewrite F in * by auto;
          destruct (alive (r2 v1 r)) eqn:A; try lia; try (now apply alive_true); try (apply alive_false in A; lia). }
      assert (Lc2 : forall c, livec (up_r2 v1 f2) c <-> livec v c) by exact Lc.
      assert (Kc : forall c, livec v c -> crows (up_r2 v1 f2) c = crows v c).
      { intros c X. change (crows (up_r2 v1 f2) c) with (crows v1 c). rewrite (proj1 (Cr c X)). now apply inv_kept. }
      assert (Kr : forall r, liver v r -> rcols (up_r2 v1 f2) r = keptr v r).
      { intros r X. change (rcols (up_r2 v1 f2) r) with (rcols v1 r). auto. }
      assert (Al : forall c, 0 <= c < n -> alivec v1 c = alivec v c).
      { intros c Hc. unfold alivec. destruct (Z_le_gt_dec 0 (cs v c)) as [X|X].
        - destruct (proj2 (Lc c) (conj Hc X)) as (_ & Y). transitivity true; [now apply alive_true|symmetry; now apply alive_true].
        - rewrite Cs; auto. intros (_ & Y). lia. }
      assert (Up : cols_upto (up_r2 v1 f2) n = cols_upto v n).
      { apply filter_ext_In. intros c Hc. apply In_zrange in Hc. now apply Al. }
      assert (Cs' : forall c, 0 <= c < n -> (cs v1 c = cs v c /\ cs v c < 0) \/ (0 <= cs v1 c /\ 0 <= cs v c)).
      { intros c Hc. destruct (Z_le_gt_dec 0 (cs v c)) as [X|X].
        - right. split; auto. exact (proj2 (proj2 (Lc c) (conj Hc X))).
        - left. split; [|lia]. apply Cs. intros (_ & Y). lia. }
      split; [|split; [exact Hpf|split; [exact E1c|split; [exact E2c|exact Lc2]]]].
      constructor.
      - assert (Lr3 : forall r, liver (up_r2 v1 f2) r -> liver v1 r) by (intros r H; apply Lr, Lr2; exact H).
        constructor; [exact (ly_B _ _ _ _ _ _ Ly)|exact (ly_col _ _ _ _ _ _ Ly)|exact (ly_cols _ _ _ _ _ _ Ly)| | |exact (ly_mem _ _ _ _ _ _ Ly)].
        + intros r H. exact (ly_row _ _ _ _ _ _ Ly r (Lr3 r H)).
        + intros r r' H H'. exact (ly_rows _ _ _ _ _ _ Ly r r' (Lr3 r H) (Lr3 r' H')).
      - pose proof (in_B _ _ _ _ _ _ _ _ _ _ I). lia.
      - intros c Hc. apply Lc2 in Hc. destruct (in_col _ _ _ _ _ _ _ _ _ _ I c Hc) as (X1 & X2 & X3). rewrite Kc by auto.
        cbn [up_r2 cl c1]. rewrite E1c. rewrite (proj2 (Cr c Hc)). rewrite inv_kept by auto. split; [|auto]. unfold crows. rewrite seg_length; lia.
      - intros c r Hc Hr. apply Lc2 in Hc. rewrite Kc in Hr by auto. destruct (in_cr _ _ _ _ _ _ _ _ _ _ I c r Hc Hr) as (X1 & X2).
        rewrite Lr2. split; auto. rewrite Kr by auto. apply filter_In. split; auto. apply alive_true. exact (proj2 Hc).
      - intros r Hr. apply Lr2 in Hr. rewrite Kr by auto. destruct (in_row _ _ _ _ _ _ _ _ _ _ I r Hr) as (X1 & X2). split; [now apply NoDup_filter|].
        intros c Hc. apply filter_In in Hc. now apply X2.
      - intros r c Hr Hc X. apply Lr2 in Hr. apply Lc2 in Hc. rewrite Kr in X by auto. rewrite Kc by auto. apply filter_In in X.
        apply (in_rc _ _ _ _ _ _ _ _ _ _ I); tauto.
      - intros r Hr. apply Lr2 in Hr. rewrite Kr by auto. cbn [up_r2 r1 c1]. rewrite Er1, E1c. destruct (in_deg _ _ _ _ _ _ _ _ _ _ I r Hr) as (X1 & X2).
        split; auto. rewrite X1. f_equal. unfold keptr. rewrite filter_filter. apply filter_ext_In. intros c Hc.
        rewrite <- (Al c) by (exact (proj2 (in_row _ _ _ _ _ _ _ _ _ _ I r Hr) c Hc)). change (alivec (up_r2 v1 f2) c) with (alivec v1 c). now rewrite andb_diag.
      - lia.
      - intros r Hr. cbn [up_r2 r2]. rewrite F by auto. destruct (alive (r2 v1 r)) eqn:A; [lia|]. apply alive_false in A. lia.
      - exact (in_ms _ _ _ _ _ _ _ _ _ _ I).
      - intros c Hc Ne. cbn [up_r2 c2]. rewrite E2c. apply (in_score _ _ _ _ _ _ _ _ _ _ I); auto. now apply Lc2.
      - intros c L Hc Ne NL HL. cbn [up_r2 c2 c1]. rewrite E2c, E1c. apply Lc2 in Hc. apply (in_nbr _ _ _ _ _ _ _ _ _ _ I); auto.
        intros x Hx. destruct (HL x Hx) as (X1 & X2 & r & X3 & X4). split; [now apply Lc2|]. split; auto. rewrite Kc in X3 by auto.
        exists r. split; auto. rewrite Kr in X4 by (apply (in_cr _ _ _ _ _ _ _ _ _ _ I c r Hc X3)). apply filter_In in X4. tauto.
      - cbn [up_r2 c3 c4 he]. rewrite E3c, E4c, Eh. exact (in_lists _ _ _ _ _ _ _ _ _ _ I).
      - intros s c. cbn [up_r2 c2]. rewrite E2c, Lc2. apply (in_D _ _ _ _ _ _ _ _ _ _ I).
      - rewrite Up. cbn [up_r2 c1]. rewrite E1c. exact (in_total _ _ _ _ _ _ _ _ _ _ I).
      - exact (in_k _ _ _ _ _ _ _ _ _ _ I).
      - exact (in_n2 _ _ _ _ _ _ _ _ _ _ I).
      - cbn [up_r2 cs c1 c2]. rewrite E1c, E2c. eapply forest_ext; [exact (in_forest _ _ _ _ _ _ _ _ _ _ I)| | | |]; auto; intros c Hc; destruct (Cs' c Hc); lia.
      - cbn [up_r2 cs c1 c2]. rewrite E1c, E2c. destruct (in_places _ _ _ _ _ _ _ _ _ _ I) as [Q1 Q2].
        assert (Q : forall c, 0 <= c < n -> cs v1 c = -1 -> cs v c = -1) by (intros c Hc X; destruct (Cs' c Hc); lia).
        constructor; auto.
    Qed.
  End One.

  (** Lines 860-862 *)
  Lemma find_min_ok w v D : rep w v -> lists n (c3 v) (c4 v) (he v) D nowhere ->
    forall fuel ms s, 0 <= ms <= s -> s <= n -> D s <> [] -> (Z.to_nat (s - ms) < fuel)%nat ->
    exists s', find_min fuel n w ms = Done s' /\ ms <= s' <= n /\ D s' <> [] /\ forall t, ms <= t < s' -> D t = [].
  Proof.
    intros R L. induction fuel as [|fuel IH]; intros ms s H1 H2 H3 H4; [lia|]. cbn [find_min].
    rewrite (head_at_ok _ _ _ _ _ _ R) by lia. cbn [obind]. rewrite (ls_head _ _ _ _ _ _ L) by lia.
    destruct (D ms) as [|c l] eqn:E.
    - cbn [nowhere hd]. change (- (-1 + 2) =? empty_link) with true. cbn [andb].
      assert (ms <> s) by (intros ->; contradiction). destruct (Z.ltb_spec ms n); [|lia].
      destruct (IH (ms + 1) s) as (s' & X1 & X2 & X3 & X4); try lia; auto. exists s'. split; auto. split; [lia|]. split; auto.
      intros t Ht. destruct (Z.eq_dec t ms) as [->|]; auto. apply X4. lia.
    - pose proof (ls_D _ _ _ _ _ _ L ms c ltac:(rewrite E; now left)). unfold empty_link. destruct (Z.eqb_spec c (-1)); [lia|]. cbn [andb].
      exists ms. split; auto. split; [lia|]. split; [congruence|]. intros; lia.
  Qed.

  Definition none : Z -> Prop := fun _ => False.

  (** Lines 859-872: the pivot is taken from its list and placed. *)
  Lemma select_ok w v D rt B pf k ms md tag : rep w v -> inv none v D rt B pf k ms md tag -> k < n2 ->
    exists s p w1 w2 f3 f4 fh D',
      find_min (S (length (wk_head w))) n w ms = Done s /\ head_at w s = Done p /\ col_at w p = Done (vcol v p) /\
      (let! w' := set_head w s (c4 v p) in
       if negb (c4 v p =? empty_link) then set_col w' (c4 v p) (cl_set_shared3 empty_link) else Done w') = Done w1 /\
      (exists pc, col_at w1 p = Done pc /\ cl_shared2 pc = c2 v p /\ cl_shared1 pc = c1 v p) /\
      set_col w1 p (cl_set_shared2 k) = Done w2 /\
      let v2 := View (rs v) (rl v) (r1 v) (r2 v) (cs v) (cl v) (c1 v) (fupd (c2 v) p k) f3 f4 (me v) fh in
      rep w2 v2 /\ inv (eq p) v2 D' rt B pf k s md tag /\ livec v p /\
      (forall L, NoDup L -> (forall x, In x L -> livec v x /\ x <> p /\ exists r, In r (crows v p) /\ In x (rcols v r)) -> zsum (c1 v) L <= c2 v p).
  Proof.
    intros R I Hk. destruct (inv_live _ _ _ _ _ _ _ _ _ _ I Hk) as (c & Lc).
    assert (Nn : forall c, ~ none c) by (intros ? []).
    pose proof (in_lists _ _ _ _ _ _ _ _ _ _ I) as L. pose proof (in_score _ _ _ _ _ _ _ _ _ _ I c Lc (Nn c)) as Sc. pose proof (in_ms _ _ _ _ _ _ _ _ _ _ I) as Hms.
    assert (Dc : In c (D (c2 v c))) by (apply (in_D _ _ _ _ _ _ _ _ _ _ I); auto).
    destruct (find_min_ok w v D R L (S (length (wk_head w))) ms (c2 v c)) as (s & E1 & Hs & Ns & Ls).
    { lia. } { lia. } { intros X. rewrite X in Dc. destruct Dc. } { pose proof (rp_nh _ _ _ _ _ R). unfold zlen in *. lia. }
    destruct (D s) as [|p l] eqn:Ds; [contradiction|]. clear Ns.
    assert (Dp : In p (D s)) by (rewrite Ds; now left). apply (in_D _ _ _ _ _ _ _ _ _ _ I) in Dp. destruct Dp as (Lp & _ & Sp).
    pose proof (proj1 Lp) as Hp.
    assert (Hh : he v s = p). { rewrite (ls_head _ _ _ _ _ _ L) by lia. now rewrite Ds. }
    pose proof (ls_linked _ _ _ _ _ _ L s ltac:(lia)) as Lk. rewrite Ds in Lk. cbn in Lk. destruct Lk as (P3 & P4 & _).
    destruct (unlink_ok nr n na w v D p [] l R L) as (w1 & f3 & f4 & fh & E2 & R1 & L1). { rewrite Sp. lia. } { rewrite Sp. exact Ds. }
    cbn [app] in L1. unfold unlink_column in E2. rewrite (col_at_ok _ _ _ _ _ _ R) in E2 by lia. cbn [obind vcol cl_shared2 cl_shared3 cl_shared4] in E2.
    rewrite P3 in E2. change (-1 =? empty_link) with true in E2. cbv iota in E2. rewrite Sp in E2. unfold up_lists in R1.
    destruct (set_c2 _ _ _ w1 _ p k R1) as (w2 & E3 & R2); [lia|]. vsimpl R2.
    exists s, p, w1, w2, f3, f4, fh, (dupd D (c2 v p) l).
    split; [exact E1|]. split; [rewrite (head_at_ok _ _ _ _ _ _ R) by lia; now rewrite Hh|]. split; [apply (col_at_ok _ _ _ _ _ _ R); lia|].
    split; [exact E2|].
    split. { eexists. split; [apply (col_at_ok _ _ _ _ _ _ R1); lia|]. split; reflexivity. }
    split; [exact E3|]. cbv zeta. split; [exact R2|]. split; [|split; [exact Lp|]].
    2:{ intros L2 NL HL. exact (in_nbr _ _ _ _ _ _ _ _ _ _ I p L2 Lp (Nn p) NL HL). }
    set (v2 := View _ _ _ _ _ _ _ _ _ _ _ _).
    assert (Sn : forall x, livec v x -> x <> p -> s <= c2 v x).
    { intros x Lx Nx. destruct (Z_le_gt_dec s (c2 v x)); auto. pose proof (in_score _ _ _ _ _ _ _ _ _ _ I x Lx (Nn x)).
      assert (X : In x (D (c2 v x))) by (apply (in_D _ _ _ _ _ _ _ _ _ _ I); auto). rewrite Ls in X by lia. destruct X. }
    pose proof (ls_ND _ _ _ _ _ _ L s) as Nd. rewrite Ds in Nd.
    destruct I. constructor; try assumption; cbn [v2 cs c1 c2 c3 c4 he].
    - destruct in_lay0. constructor; assumption.
    - lia.
    - intros x Lx Nx. rewrite fupd_other by auto. specialize (in_score0 x Lx (Nn x)). specialize (Sn x Lx ltac:(auto)). lia.
    - intros x L2 Lx Nx NL HL. rewrite fupd_other by auto. apply in_nbr0; auto.
    - intros t x. unfold dupd. destruct (Z.eqb_spec (c2 v p) t) as [<-|Nt].
      + rewrite Sp. assert (Q : In x l <-> In x (D s) /\ p <> x).
        { rewrite Ds. cbn. split; [|tauto]. intros X. split; auto. intros ->. inversion Nd; contradiction. }
        rewrite Q, in_D0. change (livec v2 x) with (livec v x). split.
        * intros ((X1 & X2 & X3) & X4). rewrite fupd_other by auto. auto.
        * intros (X1 & X2 & X3). rewrite fupd_other in X3 by auto. auto.
      + rewrite in_D0. change (livec v2 x) with (livec v x). split.
        * intros (X1 & X2 & X3). assert (p <> x) by congruence. rewrite fupd_other by auto. auto.
        * intros (X1 & X2 & X3). rewrite fupd_other in X3 by auto. auto.
    - eapply forest_ext; [exact in_forest0| | | |]; auto; try tauto. intros i Hi Ei. rewrite fupd_other; auto. intros ->. destruct Lp. lia.
    - destruct in_places0 as [Q1 Q2]. assert (Q : forall x, cs v x = -1 -> fupd (c2 v) p k x = c2 v x).
      { intros x X. apply fupd_other. intros ->. destruct Lp. lia. }
      constructor.
      + intros r Hr X. rewrite Q by auto. auto.
      + intros r r' Hr Hr' N X X'. rewrite !Q by auto. auto.
  Qed.
End Invariant.
