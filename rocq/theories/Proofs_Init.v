(** The column form is checked, the row form is made from it, and the columns get their
    first scores (colamd.rs 502-809) *)
From Coq Require Import List Arith ZArith Lia Bool Permutation.
From Verif Require Import Outcome Lib ModelColamd Spec_Colamd Proofs_Zlist Proofs_Order Proofs_View Proofs_DegreeLists Proofs_Collect Proofs_Gather Proofs_Merge Proofs_Invariant Proofs_Round.
Import ListNotations.
Local Open Scope Z_scope.

Lemma nth_firstn_lt {A} (d : A) : forall k i l, (i < k)%nat -> nth i (firstn k l) d = nth i l d.
Proof. induction k as [|k IH]; intros [|i] [|x l] H; cbn; auto; try lia. apply IH. lia. Qed.
Lemma nth_skipn_plus {A} (d : A) : forall k i l, nth i (skipn k l) d = nth (k + i) l d.
Proof. induction k as [|k IH]; intros i [|x l]; cbn; auto. now destruct i. Qed.
Lemma slice_seg (l : list Z) s k : 0 <= s -> 0 <= k -> s + k <= zlen l ->
  firstn (Z.to_nat k) (skipn (Z.to_nat s) l) = seg (znth 0 l) s k.
Proof.
  intros Hs Hk H. unfold zlen in H. apply (nth_ext _ _ 0 0).
  - rewrite firstn_length, skipn_length. pose proof (seg_length (znth 0 l) s k Hk) as X. unfold zlen in X. lia.
  - intros i Hi. rewrite firstn_length, skipn_length in Hi. rewrite nth_firstn_lt by lia. rewrite nth_skipn_plus.
    assert (X : znth 0 (seg (znth 0 l) s k) (Z.of_nat i) = znth 0 l (s + Z.of_nat i)) by (apply znth_seg; lia).
    unfold znth at 1 in X. destruct (Z.ltb_spec (Z.of_nat i) 0); [lia|]. rewrite Nat2Z.id in X. rewrite X.
    unfold znth. destruct (Z.ltb_spec (s + Z.of_nat i) 0); [lia|]. f_equal. lia.
Qed.

Section Init.
  Variables nr n na : Z.
  Hypothesis nr0 : 0 <= nr.
  Hypothesis n0 : 0 <= n.
  Notation rep := (rep nr n na).
  Variables pt a : Z -> Z.
  Hypothesis pt0 : pt 0 = 0.
  Hypothesis mono : forall c, 0 <= c < n -> pt c <= pt (c + 1).
  Notation nnz := (pt n).
  Hypothesis room : 2 * nnz <= na.
  (** The rows of column [c] *)
  Definition E (c : Z) : list Z := seg a (pt c) (pt (c + 1) - pt c).
  Hypothesis rng : forall c r, 0 <= c < n -> In r (E c) -> 0 <= r < nr.
  Hypothesis srt : forall c pre x post, 0 <= c < n -> E c = pre ++ x :: post -> forall y, In y pre -> y < x.

  Lemma pt_mono c c' : 0 <= c <= c' -> c' <= n -> pt c <= pt c'.
  Proof.
    intros H H'. assert (G : forall k, c + Z.of_nat k <= n -> pt c <= pt (c + Z.of_nat k)).
    { induction k as [|k IH]; intros L; [rewrite Z.add_0_r; lia|]. specialize (IH ltac:(lia)). pose proof (mono (c + Z.of_nat k) ltac:(lia)).
      replace (c + Z.of_nat (Datatypes.S k)) with (c + Z.of_nat k + 1) by lia. lia. }
    specialize (G (Z.to_nat (c' - c))). replace (c + Z.of_nat (Z.to_nat (c' - c))) with c' in G by lia. auto.
  Qed.
  Lemma pt_range c : 0 <= c <= n -> 0 <= pt c <= nnz.
  Proof. intros H. pose proof (pt_mono 0 c ltac:(lia) ltac:(lia)). pose proof (pt_mono c n ltac:(lia) ltac:(lia)). lia. Qed.
  Lemma E_NoDup c : 0 <= c < n -> NoDup (E c).
  Proof.
    intros Hc. assert (G : forall l, (forall pre x post, l = pre ++ x :: post -> forall y, In y pre -> y < x) -> NoDup l).
    { induction l as [|x l IH]; intros H; constructor.
      - intros X. apply in_split in X. destruct X as (p & q & ->). pose proof (H (x :: p) x q eq_refl x (or_introl eq_refl)). lia.
      - apply IH. intros pre y post -> z Hz. apply (H (x :: pre) y post eq_refl). now right. }
    apply G. intros pre x post Eq. now apply (srt c pre x post Hc).
  Qed.

  (* ----- counting ----- *)

  (** The columns before [c] that have row [r] *)
  Definition cols (r c : Z) : list Z := filter (fun c' => memb r (E c')) (zrange 0 c).
  Definition tot (r : Z) : Z := zlen (cols r n).
  Definition S (r : Z) : Z := nnz + zsum tot (zrange 0 r).

  Lemma cols_snoc r c : 0 <= c -> cols r (c + 1) = cols r c ++ (if memb r (E c) then [c] else []).
  Proof. intros H. unfold cols. rewrite zrange_snoc by lia. rewrite filter_app. reflexivity. Qed.
  Lemma cols_le r c : 0 <= c <= n -> zlen (cols r c) <= tot r.
  Proof. intros H. unfold tot, cols. rewrite (zrange_app 0 c n) by lia. rewrite filter_app, zlen_app. pose proof (zlen_nonneg (filter (fun c' => memb r (E c')) (zrange c n))). lia. Qed.
  Lemma cols_lt r c : 0 <= c < n -> In r (E c) -> zlen (cols r c) + 1 <= tot r.
  Proof.
    intros H I. pose proof (cols_le r (c + 1) ltac:(lia)) as X. rewrite cols_snoc in X by lia. rewrite (proj2 (memb_In _ _) I) in X. rewrite zlen_app in X. exact X.
  Qed.
  Lemma In_cols r c : In c (cols r n) <-> 0 <= c < n /\ In r (E c).
  Proof. unfold cols. rewrite filter_In, In_zrange, memb_In. tauto. Qed.
  Lemma tot_nonneg r : 0 <= tot r. Proof. apply zlen_nonneg. Qed.
  Lemma S_succ r : 0 <= r -> S (r + 1) = S r + tot r.
  Proof. intros H. unfold S. rewrite zrange_snoc by lia. rewrite zsum_app. cbn. lia. Qed.
  Lemma S_mono r r' : 0 <= r <= r' -> S r <= S r'.
  Proof.
    intros H. unfold S. rewrite (zrange_app 0 r r') by lia. rewrite zsum_app. assert (0 <= zsum tot (zrange r r')); [|lia]. apply zsum_nonneg. intros; apply tot_nonneg.
  Qed.
  Lemma S_apart r r' : 0 <= r < r' -> S r + tot r <= S r'.
  Proof. intros H. rewrite <- S_succ by lia. apply S_mono. lia. Qed.
  Lemma telescope c : 0 <= c <= n -> zsum (fun c => pt (c + 1) - pt c) (zrange 0 c) = pt c.
  Proof.
    intros H. assert (G : forall k, Z.of_nat k <= n -> zsum (fun c => pt (c + 1) - pt c) (zrange 0 (Z.of_nat k)) = pt (Z.of_nat k)).
    { induction k as [|k IH]; intros L; [cbn; lia|]. replace (Z.of_nat (Datatypes.S k)) with (Z.of_nat k + 1) by lia. rewrite zrange_snoc by lia. rewrite zsum_app, IH by lia. cbn. lia. }
    specialize (G (Z.to_nat c)). rewrite Z2Nat.id in G by lia. apply G. lia.
  Qed.
  Lemma S_end : S nr = 2 * nnz.
  Proof.
    unfold S, tot, cols. rewrite (zsum_swap (fun r c => memb r (E c))). rewrite (zsum_ext _ (fun c => pt (c + 1) - pt c)).
    - rewrite telescope by lia. lia.
    - intros c Hc. apply In_zrange in Hc. rewrite <- (seg_length a (pt c) (pt (c + 1) - pt c)) by (pose proof (mono c Hc); lia). fold (E c).
      apply zlen_same; [apply NoDup_filter, zrange_NoDup|now apply E_NoDup|]. intros r. rewrite filter_In, In_zrange, memb_In. split; [tauto|]. intros X. split; auto. eapply rng; eauto.
  Qed.
  Lemma S_le r : 0 <= r < nr -> S r + tot r <= 2 * nnz.
  Proof. intros H. rewrite <- S_end, <- S_succ by lia. apply S_mono. lia. Qed.
  Lemma S_ge r : nnz <= S r.
  Proof. unfold S. assert (0 <= zsum tot (zrange 0 r)); [|lia]. apply zsum_nonneg. intros; apply tot_nonneg. Qed.
  Lemma covered i : nnz <= i < 2 * nnz -> exists r, 0 <= r < nr /\ S r <= i < S r + tot r.
  Proof.
    intros H. assert (G : forall k, nnz <= i < S (Z.of_nat k) -> exists r, 0 <= r < Z.of_nat k /\ S r <= i < S r + tot r).
    { induction k as [|k IH]; intros L; [cbn in L; unfold S in L; cbn in L; lia|].
      replace (Z.of_nat (Datatypes.S k)) with (Z.of_nat k + 1) in * by lia. rewrite S_succ in L by lia. destruct (Z_lt_dec i (S (Z.of_nat k))) as [X|X].
      - destruct IH as (r & Hr & Hi); [lia|]. exists r. split; [lia|auto].
      - exists (Z.of_nat k). lia. }
    specialize (G (Z.to_nat nr)). rewrite Z2Nat.id in G by lia. rewrite S_end in G. destruct (G H) as (r & X). eauto.
  Qed.

  (* ----- the checks ----- *)

  Definition given (v : view) := (forall i, 0 <= i < nnz -> me v i = a i) /\ (forall c, 0 <= c <= n -> he v c = pt c).

  Lemma negative_none w v : rep w v -> given v -> forall l, (forall c, In c l -> 0 <= c < n) -> negative_column (wk_head w) l = Done None.
  Proof.
    intros R (_ & Hh). pose proof (rp_nh _ _ _ _ _ R) as L. induction l as [|c l IH]; intros H; [reflexivity|]. cbn [negative_column].
    pose proof (H c (or_introl eq_refl)) as Hc. rewrite (zget_ok 0) by lia. cbn [obind]. rewrite (zget_ok 0) by lia. cbn [obind].
    rewrite !(rp_he _ _ _ _ _ R), !Hh by lia. pose proof (mono c Hc). destruct (Z.ltb_spec (pt (c + 1) - pt c) 0); [lia|]. apply IH. intros; apply H; now right.
  Qed.
  Lemma slice_ok w v c : rep w v -> given v -> 0 <= c < n -> column_slice (wk_A w) (wk_head w) c = Done (E c).
  Proof.
    intros R (Hm & Hh) Hc. unfold column_slice. pose proof (rp_nh _ _ _ _ _ R) as L. pose proof (rp_na _ _ _ _ _ R) as LA.
    rewrite !(zget_ok 0) by lia. cbn [obind]. rewrite !(rp_he _ _ _ _ _ R), !Hh by lia. pose proof (mono c Hc). pose proof (pt_range c ltac:(lia)). pose proof (pt_range (c + 1) ltac:(lia)).
    unfold zlen in LA. destruct (Z.ltb_spec (pt c) 0), (Z.ltb_spec (pt (c + 1)) (pt c)), (Z.ltb_spec (Z.of_nat (length (wk_A w))) (pt (c + 1))); try lia. cbn [orb].
    rewrite slice_seg by (unfold zlen; lia). f_equal. apply seg_ext. intros i Hi. rewrite (rp_me _ _ _ _ _ R) by lia. apply Hm. lia.
  Qed.
  Lemma bad_none w v : rep w v -> given v -> forall l, (forall c, In c l -> 0 <= c < n) -> bad_entry (wk_A w) (wk_head w) nr l = Done None.
  Proof.
    intros R G. induction l as [|c l IH]; intros H; [reflexivity|]. cbn [bad_entry]. pose proof (H c (or_introl eq_refl)) as Hc.
    rewrite (slice_ok w v c R G Hc). cbn [obind]. unfold bad_row. destruct (find _ (E c)) as [r|] eqn:F.
    - apply find_some in F. destruct F as (X & Y). pose proof (rng c r Hc X). destruct (Z.ltb_spec r 0), (Z.leb_spec nr r); cbn in Y; try lia; discriminate.
    - apply IH. intros; apply H; now right.
  Qed.

  (* ----- the columns and rows ----- *)

  Lemma init_cols_ok w v : rep w v -> given v -> exists w' v', ofold init_col (zrange 0 n) w = Done w' /\ rep w' v' /\ given v' /\
    (forall c, 0 <= c < n -> vcol v' c = CCol (pt c) (pt (c + 1) - pt c) 1 0 (-1) (-1)).
  Proof.
    intros R G. destruct (zloop (fun i w => exists v', rep w v' /\ given v' /\ forall c, 0 <= c < i -> vcol v' c = CCol (pt c) (pt (c + 1) - pt c) 1 0 (-1) (-1)) init_col 0 n n0)
      with (s := w) as (w' & E1 & v' & H1 & H2 & H3).
    - intros c wi Hc (v1 & R1 & G1 & H1). unfold init_col. rewrite !(head_at_ok _ _ _ _ _ _ R1) by lia. cbn [obind]. rewrite !(proj2 G1) by lia.
      destruct (set_col_ok _ _ _ wi v1 c (fun _ => CCol (pt c) (pt (c + 1) - pt c) 1 0 empty_link empty_link)
        (View (rs v1) (rl v1) (r1 v1) (r2 v1) (fupd (cs v1) c (pt c)) (fupd (cl v1) c (pt (c + 1) - pt c)) (fupd (c1 v1) c 1) (fupd (c2 v1) c 0) (fupd (c3 v1) c (-1)) (fupd (c4 v1) c (-1)) (me v1) (he v1)) R1)
        as (w2 & E2 & R2); [lia| |reflexivity|reflexivity|reflexivity|].
      { intros j. unfold vcol. cbn. unfold fupd. destruct (c =? j); reflexivity. }
      rewrite E2. exists w2. split; [reflexivity|]. eexists. split; [exact R2|]. split; [exact G1|]. intros j Hj. unfold vcol. cbn [cs cl c1 c2 c3 c4]. unfold fupd.
      destruct (Z.eqb_spec c j) as [<-|N]; [reflexivity|]. specialize (H1 j ltac:(lia)). unfold vcol in H1. exact H1.
    - exists v. split; auto. split; auto. intros; lia.
    - exists w', v'. auto.
  Qed.

  (** The fields of the columns stay. *)
  Definition columns (v : view) := forall c, 0 <= c < n -> vcol v c = CCol (pt c) (pt (c + 1) - pt c) 1 0 (-1) (-1).
  Definition up_rows v fs fl f1 f2 := View fs fl f1 f2 (cs v) (cl v) (c1 v) (c2 v) (c3 v) (c4 v) (me v) (he v).
  Lemma up_rows_ok w v r x : rep w v -> 0 <= r <= nr -> exists w', set_row w r x = Done w' /\
    rep w' (up_rows v (fupd (rs v) r (rw_start (x (vrow v r)))) (fupd (rl v) r (rw_length (x (vrow v r)))) (fupd (r1 v) r (rw_shared1 (x (vrow v r)))) (fupd (r2 v) r (rw_shared2 (x (vrow v r))))).
  Proof.
    intros R H. apply (set_row_ok _ _ _ w v r x); auto. intros j. unfold vrow at 1. cbn [up_rows rs rl r1 r2]. unfold fupd. destruct (r =? j); [|reflexivity]. now destruct (x (vrow v r)).
  Qed.

  (** A loop that rewrites each row *)
  Lemma rows_loop (x : crow -> crow) (w : work) v : rep w v ->
    exists w' fs fl f1 f2, ofold (fun w row => set_row w row x) (zrange 0 nr) w = Done w' /\ rep w' (up_rows v fs fl f1 f2) /\
      forall r, 0 <= r < nr -> CRow (fs r) (fl r) (f1 r) (f2 r) = x (vrow v r).
  Proof.
    intros R. destruct (zloop (fun i w' => exists fs fl f1 f2, rep w' (up_rows v fs fl f1 f2) /\ (forall r, 0 <= r < i -> CRow (fs r) (fl r) (f1 r) (f2 r) = x (vrow v r)) /\
      (forall r, i <= r -> CRow (fs r) (fl r) (f1 r) (f2 r) = vrow v r)) (fun w row => set_row w row x) 0 nr nr0) with (s := w) as (w' & E1 & fs & fl & f1 & f2 & R' & H1 & _).
    - intros i wi Hi (fs & fl & f1 & f2 & Ri & H1 & H2). destruct (up_rows_ok wi _ i x Ri) as (w2 & E2 & R2); [lia|]. rewrite E2. exists w2. split; [reflexivity|].
      assert (Ev : vrow (up_rows v fs fl f1 f2) i = vrow v i) by (apply H2; lia). rewrite Ev in R2. do 4 eexists. split; [exact R2|]. split.
      + intros r Hr. cbn [up_rows rs rl r1 r2]. unfold fupd. destruct (Z.eqb_spec i r) as [<-|N]; [now destruct (x (vrow v i))|]. apply H1. lia.
      + intros r Hr. cbn [up_rows rs rl r1 r2]. rewrite !fupd_other by lia. apply H2. lia.
    - exists (rs v), (rl v), (r1 v), (r2 v). split; [destruct v; exact R|]. split; [intros; lia|reflexivity].
    - exists w', fs, fl, f1, f2. auto.
  Qed.

  (* ----- counting the entries of the rows ----- *)

  Lemma scan_ok w v : rep w v -> given v -> (forall r, 0 <= r < nr -> rl v r = 0 /\ r2 v r = -1) -> forall j, j_seen j = false ->
    exists w' fl f2, ofold scan_column (zrange 0 n) (w, j) = Done (w', j) /\ rep w' (up_rows v (rs v) fl (r1 v) f2) /\ (forall r, 0 <= r < nr -> fl r = tot r).
  Proof.
    intros R G H0 j Hj.
    destruct (zloop (fun c st => snd st = j /\ exists fl f2, rep (fst st) (up_rows v (rs v) fl (r1 v) f2) /\
      (forall r, 0 <= r < nr -> fl r = zlen (cols r c) /\ f2 r < c)) scan_column 0 n n0) with (s := (w, j)) as ((w' & j') & E1 & Ej & fl & f2 & R' & H).
    - intros c (wi & ji) Hc (Ej & fl & f2 & Ri & Hi). cbn [fst snd] in *. subst ji. unfold scan_column.
      assert (Gi : given (up_rows v (rs v) fl (r1 v) f2)) by exact G. rewrite (slice_ok wi _ c Ri Gi Hc). cbn [obind].
      assert (Inner : forall post pre wk gl g2 last, E c = pre ++ post -> (forall y, In y pre -> y <= last) -> (pre = [] -> last = -1) -> (pre <> [] -> In last pre) ->
        rep wk (up_rows v (rs v) gl (r1 v) g2) ->
        (forall r, 0 <= r < nr -> gl r = zlen (cols r c) + (if memb r pre then 1 else 0) /\ g2 r <= c /\ (g2 r = c -> In r pre)) ->
        exists wk' gl' g2' last', ofold (scan_entry c) post (wk, j, last) = Done (wk', j, last') /\ rep wk' (up_rows v (rs v) gl' (r1 v) g2') /\
          forall r, 0 <= r < nr -> gl' r = zlen (cols r c) + (if memb r (E c) then 1 else 0) /\ g2' r <= c).
      { induction post as [|x post IH]; intros pre wk gl g2 last Ee Hle Hn Hin Rk Hk.
        - rewrite app_nil_r in Ee. subst pre. exists wk, gl, g2, last. split; [reflexivity|]. split; [exact Rk|]. intros r Hr. destruct (Hk r Hr) as (X & Y & _). auto.
        - assert (Hx : In x (E c)) by (rewrite Ee; apply in_app_iff; right; now left). pose proof (rng c x Hc Hx) as Hxr.
          assert (Lt : last < x). { destruct pre as [|y pre]; [rewrite Hn by auto; lia|]. apply (srt c (y :: pre) x post Hc Ee). apply Hin. discriminate. }
          assert (Npre : ~ In x pre) by (intros X; pose proof (srt c pre x post Hc Ee x X); lia).
          destruct (Hk x Hxr) as (X1 & X2 & X3). cbn [ofold]. unfold scan_entry at 1. rewrite (row_at_ok _ _ _ _ _ _ Rk) by lia. cbn [obind vrow rw_shared2 rw_length up_rows r2 rl].
          destruct (Z.leb_spec x last); [lia|]. destruct (Z.eqb_spec (g2 x) c) as [Y|Y]; [exfalso; auto|]. cbn [orb negb].
          destruct (up_rows_ok wk _ x (fun r => rw_set_length (rw_length r + 1) r) Rk) as (w1 & Ew1 & R1); [lia|]. rewrite Ew1. cbn [obind].
          cbn [vrow rw_set_length rw_start rw_length rw_shared1 rw_shared2 up_rows rs rl r1 r2] in R1. vsimpl R1.
          destruct (set_r2 _ _ _ w1 _ x c R1) as (w2 & Ew2 & R2); [lia|]. rewrite Ew2. cbn [obind]. vsimpl R2.
          assert (R2' : rep w2 (up_rows v (rs v) (fupd gl x (gl x + 1)) (r1 v) (fupd g2 x c))).
          { eapply rep_ext; [exact R2| |intros ? _; repeat split; reflexivity|reflexivity|reflexivity]. intros r _. cbn [up_rows up_r2 rs rl r1 r2]. unfold fupd. destruct (Z.eqb_spec x r) as [<-|]; repeat split; reflexivity. }
          apply (IH (pre ++ [x]) w2 (fupd gl x (gl x + 1)) (fupd g2 x c) x).
          + now rewrite <- app_assoc.
          + intros y Hy. apply in_app_iff in Hy. destruct Hy as [Hy|[<-|[]]]; [|lia]. specialize (Hle y Hy). lia.
          + intros X. destruct pre; discriminate.
          + intros _. apply in_app_iff. right. now left.
          + exact R2'.
          + intros r Hr. unfold memb. rewrite existsb_app. cbn [existsb]. rewrite orb_false_r. fold (memb r pre). unfold fupd. rewrite in_app_iff. cbn [In].
            destruct (Z.eqb_spec x r) as [<-|N].
            * rewrite Z.eqb_refl, orb_true_r. rewrite X1. rewrite (proj2 (memb_false _ _) Npre). split; [lia|]. split; [lia|auto].
            * destruct (Z.eqb_spec r x); [congruence|]. rewrite orb_false_r. destruct (Hk r Hr) as (Y1 & Y2 & Y3). auto. }
      destruct (Inner (E c) [] wi fl f2 (-1)) as (wk & gl & g2 & last & Ei & Rk & Hk);
      [reflexivity|intros y []|reflexivity|contradiction|exact Ri| |].
      { intros r Hr. destruct (Hi r Hr). cbn [memb existsb]. split; [lia|]. split; [lia|]. lia. }
      rewrite Ei. cbn [obind]. eexists. split; [reflexivity|]. cbn [fst snd]. split; [reflexivity|]. exists gl, g2. split; [exact Rk|].
      intros r Hr. destruct (Hk r Hr) as (X & Y). rewrite cols_snoc by lia. rewrite zlen_app, X. split; [|lia]. destruct (memb r (E c)); reflexivity.
    - cbn [fst snd]. split; [reflexivity|]. exists (rl v), (r2 v). split; [destruct v; exact R|]. intros r Hr. destruct (H0 r Hr) as (-> & ->). split; [reflexivity|lia].
    - cbn [fst snd] in *. subst j'. exists w', fl, f2. split; [exact E1|]. split; [exact R'|]. intros r Hr. apply H. exact Hr.
  Qed.

  (** Lines 579-588 *)
  Lemma pointers_ok w v : rep w v -> (forall r, 0 <= r < nr -> rl v r = tot r) ->
    exists w1 w' fs f1 f2 fl, set_row w 0 (fun r => CRow nnz (rw_length r) nnz (-1)) = Done w1 /\ ofold row_pointer (zrange 1 nr) w1 = Done w' /\ rep w' (up_rows v fs fl f1 f2) /\
      forall r, 0 <= r < nr -> fs r = S r /\ fl r = tot r /\ f1 r = S r.
  Proof.
    intros R H. destruct (up_rows_ok w v 0 (fun r => CRow nnz (rw_length r) nnz (-1)) R) as (w1 & E1 & R1); [lia|]. cbn [vrow rw_start rw_length rw_shared1 rw_shared2] in R1.
    assert (S0 : S 0 = nnz) by (unfold S; cbn; lia).
    destruct (Z_lt_dec nr 1) as [X|X].
    { exists w1, w1. do 4 eexists. split; [exact E1|]. rewrite zrange_nil by lia. split; [reflexivity|]. split; [exact R1|]. intros r Hr. lia. }
    destruct (zloop (fun i w' => exists fs f1 f2 fl, rep w' (up_rows v fs fl f1 f2) /\ (forall r, 0 <= r < i -> fs r = S r /\ f1 r = S r) /\ (forall r, 0 <= r < nr -> fl r = tot r)) row_pointer 1 nr)
      with (s := w1) as (w' & E2 & fs & f1 & f2 & fl & R' & H1 & H2).
    - lia.
    - intros i wi Hi (fs & f1 & f2 & fl & Ri & H1 & H2). unfold row_pointer. rewrite (row_at_ok _ _ _ _ _ _ Ri) by lia. cbn [obind vrow rw_start rw_length up_rows rs rl].
      rewrite (proj1 (H1 (i - 1) ltac:(lia))), H2 by lia. rewrite <- S_succ by lia. replace (i - 1 + 1) with i by lia.
      destruct (up_rows_ok wi _ i (fun r => CRow (S i) (rw_length r) (S i) (-1)) Ri) as (w2 & Ew & R2); [lia|]. rewrite Ew. exists w2. split; [reflexivity|].
      cbn [vrow rw_start rw_length rw_shared1 rw_shared2 up_rows rs rl r1 r2] in R2. do 4 eexists. split; [exact R2|]. split.
      + intros r Hr. unfold fupd. destruct (Z.eqb_spec i r) as [<-|N]; [auto|]. apply H1. lia.
      + intros r Hr. unfold fupd. destruct (Z.eqb_spec i r) as [<-|N]; auto.
    - do 4 eexists. split; [exact R1|]. split.
      + intros r Hr. assert (r = 0) by lia. subst r. rewrite !fupd_same. auto.
      + intros r Hr. unfold fupd. destruct (Z.eqb_spec 0 r) as [<-|N]; auto.
    - exists w1, w', fs, f1, f2, fl. split; [exact E1|]. split; [exact E2|]. split; [exact R'|]. intros r Hr. destruct (H1 r Hr). auto.
  Qed.

  (** Lines 606-612 *)
  Lemma row_form_ok w v : rep w v -> given v -> (forall r, 0 <= r < nr -> rs v r = S r /\ rl v r = tot r /\ r1 v r = S r) ->
    exists w' f1 m, ofold (row_form false) (zrange 0 n) w = Done w' /\ rep w' (up_me (up_r1 v f1) m) /\ (forall i, 0 <= i < nnz -> m i = a i) /\
      forall r, 0 <= r < nr -> seg m (S r) (tot r) = cols r n.
  Proof.
    intros R (Hm & Hh) H.
    destruct (zloop (fun c w' => exists f1 m, rep w' (up_me (up_r1 v f1) m) /\ (forall i, 0 <= i < nnz -> m i = a i) /\
      forall r, 0 <= r < nr -> f1 r = S r + zlen (cols r c) /\ seg m (S r) (zlen (cols r c)) = cols r c) (row_form false) 0 n n0) with (s := w) as (w' & E1 & f1 & m & R' & M' & H').
    - intros c wi Hc (f1 & m & Ri & Mi & Hi). unfold row_form. rewrite !(head_at_ok _ _ _ _ _ _ Ri) by lia. cbn [obind up_me up_r1 he]. rewrite !Hh by lia.
      pose proof (mono c Hc) as Mc. pose proof (pt_range c ltac:(lia)) as Pc. pose proof (pt_range (c + 1) ltac:(lia)) as Pc'.
      destruct (seg_loop (fun pre w' => exists g1 g, rep w' (up_me (up_r1 v g1) g) /\ (forall i, 0 <= i < nnz -> g i = a i) /\
        forall r, 0 <= r < nr -> let l := cols r c ++ (if memb r pre then [c] else []) in g1 r = S r + zlen l /\ seg g (S r) (zlen l) = l)
        (row_entry false c) a (pt c) (pt (c + 1) - pt c)) with (st := wi) as (w2 & E2 & g1 & g & R2 & G2 & H2).
      + lia.
      + intros i pre post wk Hi2 Es _ (g1 & g & Rk & Gk & Hk). fold (E c) in Es. unfold row_entry. rewrite (mem_at_ok _ _ _ _ _ _ Rk) by lia. cbn [obind up_me me]. rewrite Gk by lia.
        set (x := a i) in *. assert (Hx : In x (E c)) by (rewrite Es; apply in_app_iff; right; now left). pose proof (rng c x Hc Hx) as Hxr.
        assert (Npre : memb x pre = false). { apply memb_false. intros X. pose proof (srt c pre x post Hc Es x X). lia. }
        rewrite (row_at_ok _ _ _ _ _ _ Rk) by lia. cbn [obind vrow rw_shared1 up_me up_r1 r1 andb]. destruct (Hk x Hxr) as (X1 & X2). cbv zeta in X1, X2. rewrite Npre, app_nil_r in X1, X2.
        pose proof (cols_lt x c Hc Hx) as Lt. pose proof (zlen_nonneg (cols x c)) as Nn. pose proof (S_le x Hxr) as Sle. pose proof (S_ge x) as Sge. pose proof (pt_range n ltac:(lia)) as Pn.
        destruct (set_mem_ok _ _ _ wk _ (g1 x) c Rk) as (w3 & E3 & R3); [lia|]. rewrite E3. cbn [obind]. vsimpl R3.
        destruct (set_r1 _ _ _ w3 _ x (g1 x + 1) R3) as (w4 & E4 & R4); [lia|]. rewrite E4. cbn [obind]. exists w4. split; [reflexivity|].
        exists (fupd g1 x (g1 x + 1)), (fupd g (g1 x) c). split; [exact R4|]. split; [intros k Hk'; rewrite fupd_other by lia; now apply Gk|].
        intros r Hr. unfold memb. rewrite existsb_app. cbn [existsb]. rewrite orb_false_r. fold (memb r pre). cbv zeta. destruct (Z.eqb_spec r x) as [->|N].
        * rewrite orb_true_r, fupd_same. rewrite zlen_app. change (zlen [c]) with 1. split; [lia|]. rewrite seg_snoc by lia. rewrite <- X1, fupd_same. f_equal.
          rewrite seg_fupd_out by lia. exact X2.
        * rewrite orb_false_r. rewrite fupd_other by congruence. destruct (Hk r Hr) as (Y1 & Y2). cbv zeta in Y1, Y2. split; [exact Y1|]. rewrite seg_fupd_out; [exact Y2|].
          pose proof (S_le r Hr). assert (Lr : zlen (cols r c ++ (if memb r pre then [c] else [])) <= tot r).
          { rewrite zlen_app. destruct (memb r pre) eqn:Mr; [|change (zlen (@nil Z)) with 0; pose proof (cols_le r c ltac:(lia)); lia]. change (zlen [c]) with 1. apply cols_lt; auto. rewrite Es. apply in_app_iff. left. now apply memb_In. }
          destruct (Z.lt_total r x) as [Z1|[Z1|Z1]]; [pose proof (S_apart r x ltac:(lia)); lia|congruence|pose proof (S_apart x r ltac:(lia)); lia].
      + exists f1, m. split; [exact Ri|]. split; [exact Mi|]. intros r Hr. cbn [memb existsb]. rewrite app_nil_r. apply Hi. exact Hr.
      + replace (pt c + (pt (c + 1) - pt c)) with (pt (c + 1)) in E2 by lia. rewrite E2. exists w2. split; [reflexivity|]. exists g1, g. split; [exact R2|]. split; [exact G2|].
        intros r Hr. rewrite cols_snoc by lia. fold (E c) in H2. apply H2. exact Hr.
    - exists (r1 v), (me v). split; [destruct v; exact R|]. split; [exact Hm|]. intros r Hr. destruct (H r Hr) as (_ & _ & ->). change (cols r 0) with (@nil Z). change (zlen (@nil Z)) with 0.
      split; [lia|]. apply seg_nil. lia.
    - exists w', f1, m. split; [exact E1|]. split; [exact R'|]. split; [exact M'|]. intros r Hr. apply H'. exact Hr.
  Qed.

  (** What there is after lines 502-655 *)
  Record formed (v : view) : Prop := {
    fm_col : forall c, 0 <= c < n -> cs v c = pt c /\ cl v c = pt (c + 1) - pt c /\ c1 v c = 1;
    fm_row : forall r, 0 <= r < nr -> rs v r = S r /\ rl v r = tot r /\ r1 v r = tot r /\ r2 v r = 0;
    fm_mem : forall i, 0 <= i < nnz -> me v i = a i;
    fm_rcols : forall r, 0 <= r < nr -> rcols v r = cols r n
  }.
  Lemma init_rows_cols_ok w v : rep w v -> given v -> exists w' v' j, init_rows_cols nr n w = Done (inr (w', j)) /\ j_seen j = false /\ rep w' v' /\ formed v'.
  Proof.
    intros R G. unfold init_rows_cols. rewrite (negative_none w v R G) by (intros c Hc; now apply In_zrange in Hc). cbn [obind].
    destruct (init_cols_ok w v R G) as (w1 & v1 & E1 & R1 & G1 & C1). rewrite E1. cbn [obind].
    destruct (rows_loop (fun r => CRow (rw_start r) 0 (rw_shared1 r) (-1)) w1 v1 R1) as (w2 & fs & fl & f1 & f2 & E2 & R2 & H2). rewrite E2. cbn [obind].
    assert (G2 : given (up_rows v1 fs fl f1 f2)) by exact G1.
    rewrite (bad_none w2 _ R2 G2) by (intros c Hc; now apply In_zrange in Hc). cbn [obind].
    destruct (scan_ok w2 _ R2 G2) with (j := Jumble false (-1) (-1) 0) as (w3 & gl & g2 & E3 & R3 & H3); [|reflexivity|].
    { intros r Hr. specialize (H2 r Hr). injection H2 as _ X _ Y. cbn [up_rows rl r2]. auto. }
    rewrite E3. cbn [obind j_seen]. cbn [up_rows rs rl r1 r2] in R3.
    rewrite (head_at_ok _ _ _ _ _ _ R3) by lia. cbn [obind up_rows he]. rewrite (proj2 G1) by lia.
    destruct (pointers_ok w3 _ R3 H3) as (w4 & w5 & hs & h1 & h2 & hl & E4 & E5 & R5 & H5). rewrite E4. cbn [obind]. rewrite E5. cbn [obind].
    destruct (row_form_ok w5 _ R5 G1 H5) as (w6 & k1 & m & E6 & R6 & M6 & H6). rewrite E6. cbn [obind].
    destruct (rows_loop (fun r => CRow (rw_start r) (rw_length r) (rw_length r) 0) w6 _ R6) as (w7 & ls & ll & l1 & l2 & E7 & R7 & H7). rewrite E7. cbn [obind].
    do 3 eexists. split; [reflexivity|]. split; [reflexivity|]. split; [exact R7|].
    assert (Rows : forall r, 0 <= r < nr -> ls r = S r /\ ll r = tot r /\ l1 r = tot r /\ l2 r = 0).
    { intros r Hr. specialize (H7 r Hr). destruct (H5 r Hr) as (X1 & X2 & X3). cbn [up_rows rs rl r1] in X1, X2, X3. unfold vrow in H7. cbn [up_rows up_me up_r1 rs rl r1 r2 rw_start rw_length] in H7. injection H7 as Y1 Y2 Y3 Y4. rewrite X1, X2 in *. auto. }
    constructor.
    - intros c Hc. cbn [up_rows up_me up_r1 cs cl c1]. specialize (C1 c Hc). unfold vcol in C1. injection C1 as X1 X2 X3 _ _ _. auto.
    - exact Rows.
    - exact M6.
    - intros r Hr. destruct (Rows r Hr) as (X1 & X2 & _). unfold rcols. cbn [up_rows up_me up_r1 rs rl me]. rewrite X1, X2. now apply H6.
  Qed.

  (* ----- leaving out columns ----- *)

  (** The starts and the places of the columns when [q] are left *)
  Record dropped (fs f2 : Z -> Z) (q : Z) : Prop := {
    dp_start : forall c, 0 <= c < n -> fs c = pt c \/ fs c = -1 /\ q <= f2 c < n;
    dp_apart : forall c c', 0 <= c < n -> 0 <= c' < n -> c <> c' -> fs c = -1 -> fs c' = -1 -> f2 c <> f2 c';
    dp_count : zlen (filter (fun c => alive (fs c)) (zrange 0 n)) = q
  }.
  Lemma dp_range fs f2 q : dropped fs f2 q -> 0 <= q <= n.
  Proof.
    intros H. rewrite <- (dp_count _ _ _ H). pose proof (zlen_nonneg (filter (fun c => alive (fs c)) (zrange 0 n))). pose proof (zlen_filter (fun c => alive (fs c)) (zrange 0 n)) as X.
    unfold zlen in X at 2. rewrite zrange_length in X. lia.
  Qed.
  Lemma dp_alive fs f2 q c : dropped fs f2 q -> 0 <= c < n -> 0 <= fs c -> fs c = pt c.
  Proof. intros H Hc A. destruct (dp_start _ _ _ H c Hc) as [X|(X & _)]; [exact X|lia]. Qed.
  Lemma drop fs f2 q c : dropped fs f2 q -> 0 <= c < n -> 0 <= fs c -> dropped (fupd fs c (-1)) (fupd f2 c (q - 1)) (q - 1).
  Proof.
    intros H Hc A. pose proof (dp_range _ _ _ H) as Q.
    assert (Q1 : q = 1 + zlen (filter (fun x => alive (fupd fs c (-1) x)) (zrange 0 n))).
    { rewrite <- (dp_count _ _ _ H), <- (zlen_cons c). apply zlen_same.
      - apply NoDup_filter, zrange_NoDup.
      - constructor; [|apply NoDup_filter, zrange_NoDup]. rewrite filter_In, fupd_same. intros (_ & X). apply alive_true in X. lia.
      - intros x. cbn [In]. rewrite !filter_In, !In_zrange, !alive_true. unfold fupd. destruct (Z.eqb_spec c x) as [<-|N]; [tauto|]. intuition congruence. }
    pose proof (zlen_nonneg (filter (fun x => alive (fupd fs c (-1) x)) (zrange 0 n))) as Nn.
    constructor.
    - intros x Hx. unfold fupd. destruct (Z.eqb_spec c x) as [E1|N]; [right; lia|]. destruct (dp_start _ _ _ H x Hx) as [X|X]; [auto|right; lia].
    - intros x y Hx Hy N. unfold fupd. destruct (Z.eqb_spec c x) as [E1|N1], (Z.eqb_spec c y) as [E2|N2]; try lia.
      + intros _ Y. destruct (dp_start _ _ _ H y Hy) as [X|X]; [pose proof (pt_range y ltac:(lia)); lia|lia].
      + intros Y _. destruct (dp_start _ _ _ H x Hx) as [X|X]; [pose proof (pt_range x ltac:(lia)); lia|lia].
      + now apply (dp_apart _ _ _ H).
    - lia.
  Qed.

  Definition shape v g1 g2 fs fl f2 m := View (rs v) (rl v) g1 g2 fs fl (c1 v) f2 (c3 v) (c4 v) m (he v).
  Lemma kill_ok w v g1 g2 fs fl f2 m c q : rep w (shape v g1 g2 fs fl f2 m) -> 0 <= c < n ->
    exists w', set_col w c (fun col => cl_set_start dead_principal (cl_set_shared2 q col)) = Done w' /\ rep w' (shape v g1 g2 (fupd fs c (-1)) fl (fupd f2 c q) m).
  Proof.
    intros R Hc. eapply set_col_ok; [exact R|lia| |reflexivity|reflexivity|reflexivity]. intros j. unfold vcol. cbn. unfold fupd. destruct (c =? j) eqn:X; [|reflexivity]. apply Z.eqb_eq in X. subst j. reflexivity.
  Qed.

  Lemma drop_empty_ok w v : rep w v -> formed v -> exists w' fs f2 q, ofold drop_empty (rev (zrange 0 n)) (w, n) = Done (w', q) /\
    rep w' (shape v (r1 v) (r2 v) fs (cl v) f2 (me v)) /\ dropped fs f2 q /\ forall c, 0 <= c < n -> E c <> [] -> 0 <= fs c.
  Proof.
    intros R F. destruct (zloop_down (fun i st => exists fs f2, rep (fst st) (shape v (r1 v) (r2 v) fs (cl v) f2 (me v)) /\ dropped fs f2 (snd st) /\
      (forall c, 0 <= c < n -> E c <> [] -> 0 <= fs c) /\ (forall c, 0 <= c < i -> 0 <= fs c)) drop_empty n n0) with (s := (w, n)) as ((w' & q) & E1 & fs & f2 & R' & H1 & H2 & _).
    - intros i (wi & q) Hi (fs & f2 & Ri & Hd & He & Hl). cbn [fst snd] in *. unfold drop_empty. rewrite (col_at_ok _ _ _ _ _ _ Ri) by lia. cbn [obind vcol shape cl cl_length].
      destruct (fm_col _ F i Hi) as (_ & X & _). rewrite X. destruct (Z.eqb_spec (pt (i + 1) - pt i) 0) as [Y|Y].
      + destruct (kill_ok wi v _ _ _ _ _ _ i (q - 1) Ri Hi) as (w2 & E2 & R2). rewrite E2. cbn [obind]. eexists. split; [reflexivity|]. cbn [fst snd]. do 2 eexists. split; [exact R2|].
        split; [apply drop; auto; apply Hl; lia|]. split.
        * intros c Hc N. unfold fupd. destruct (Z.eqb_spec i c) as [<-|N']; [|auto]. destruct N. unfold E. apply seg_nil. lia.
        * intros c Hc. rewrite fupd_other by lia. apply Hl. lia.
      + eexists. split; [reflexivity|]. cbn [fst snd]. exists fs, f2. split; [exact Ri|]. split; [exact Hd|]. split; [exact He|]. intros c Hc. apply Hl. lia.
    - cbn [fst snd]. exists (cs v), (c2 v). split; [destruct v; exact R|].
      assert (Al : forall c, 0 <= c < n -> cs v c = pt c /\ 0 <= cs v c). { intros c Hc. destruct (fm_col _ F c Hc) as (X & _). pose proof (pt_range c ltac:(lia)). lia. }
      split; [constructor|].
      + intros c Hc. left. apply Al. exact Hc.
      + intros c c' Hc _ _ X. destruct (Al c Hc). lia.
      + rewrite filter_all; [unfold zlen; rewrite zrange_length; lia|]. intros c Hc. apply In_zrange in Hc. apply alive_true. apply Al. exact Hc.
      + split; intros c Hc; intros; apply Al; exact Hc.
    - cbn [fst snd] in *. exists w', fs, f2, q. auto.
  Qed.

  (** The live columns of a row *)
  Definition live (fs : Z -> Z) (r : Z) : list Z := filter (fun c => alive (fs c)) (cols r n).
  Lemma cols_NoDup r : NoDup (cols r n). Proof. apply NoDup_filter, zrange_NoDup. Qed.
  Lemma live_drop fs c r : 0 <= c < n -> 0 <= fs c -> zlen (live (fupd fs c (-1)) r) = zlen (live fs r) - (if memb r (E c) then 1 else 0).
  Proof.
    intros Hc A. destruct (memb r (E c)) eqn:M.
    - apply memb_In in M. assert (X : zlen (live fs r) = zlen (c :: live (fupd fs c (-1)) r)); [|rewrite zlen_cons in X; lia]. apply zlen_same.
      + apply NoDup_filter, cols_NoDup.
      + constructor; [|apply NoDup_filter, cols_NoDup]. unfold live. rewrite filter_In, fupd_same. intros (_ & X). apply alive_true in X. lia.
      + intros x. unfold live. cbn [In]. rewrite !filter_In, !In_cols, !alive_true. unfold fupd. destruct (Z.eqb_spec c x) as [<-|N]; [tauto|]. intuition congruence.
    - rewrite Z.sub_0_r. f_equal. apply filter_ext_In. intros x Hx. apply In_cols in Hx. apply memb_false in M. unfold fupd. destruct (Z.eqb_spec c x) as [<-|N]; [tauto|reflexivity].
  Qed.

  Lemma drop_dense_ok dc w v fs f2 q : formed v -> rep w (shape v (r1 v) (r2 v) fs (cl v) f2 (me v)) -> dropped fs f2 q -> (forall c, 0 <= c < n -> E c <> [] -> 0 <= fs c) ->
    exists w' g1 fs' f2' q', ofold (drop_dense dc) (rev (zrange 0 n)) (w, q) = Done (w', q') /\ rep w' (shape v g1 (r2 v) fs' (cl v) f2' (me v)) /\ dropped fs' f2' q' /\
      forall r, 0 <= r < nr -> g1 r = zlen (live fs' r).
  Proof.
    intros F R Hd He. destruct (zloop_down (fun i st => exists g1 fs f2, rep (fst st) (shape v g1 (r2 v) fs (cl v) f2 (me v)) /\ dropped fs f2 (snd st) /\
      forall r, 0 <= r < nr -> g1 r = zlen (live fs r)) (drop_dense dc) n n0) with (s := (w, q)) as ((w' & q') & E1 & g1 & fs' & f2' & R' & H1 & H2).
    - clear Hd He R fs f2 q. intros i (wi & q) Hi (g1 & fs & f2 & Ri & Hd & Hg). cbn [fst snd] in *. unfold drop_dense. rewrite (col_at_ok _ _ _ _ _ _ Ri) by lia. cbn [obind vcol shape cl cs cl_length cl_start].
      destruct (alive (fs i)) eqn:A; cbn [andb]; [|eexists; split; [reflexivity|]; exists g1, fs, f2; auto].
      destruct (dc <? cl v i); [|eexists; split; [reflexivity|]; exists g1, fs, f2; auto].
      apply alive_true in A. destruct (fm_col _ F i Hi) as (_ & X & _). rewrite X. rewrite (dp_alive _ _ _ i Hd Hi A).
      destruct (set_c2 _ _ _ wi _ i (q - 1) Ri) as (w1 & E2 & R2); [lia|]. rewrite E2. cbn [obind].
      pose proof (mono i Hi) as Mi. pose proof (pt_range i ltac:(lia)) as P1. pose proof (pt_range (i + 1) ltac:(lia)) as P2.
      destruct (seg_loop (fun pre w' => exists h1, rep w' (shape v h1 (r2 v) fs (cl v) (fupd f2 i (q - 1)) (me v)) /\ forall r, 0 <= r < nr -> h1 r = zlen (live fs r) - (if memb r pre then 1 else 0))
        decrement_degree a (pt i) (pt (i + 1) - pt i)) with (st := w1) as (w3 & E3 & h1 & R3 & H3).
      + lia.
      + intros k pre post wk Hk Es _ (h1 & Rk & Hh). fold (E i) in Es. unfold decrement_degree. rewrite (mem_at_ok _ _ _ _ _ _ Rk) by lia. cbn [obind shape me]. rewrite (fm_mem _ F) by lia.
        assert (Hx : In (a k) (E i)) by (rewrite Es; apply in_app_iff; right; now left). pose proof (rng i (a k) Hi Hx) as Hr.
        assert (Npre : memb (a k) pre = false). { apply memb_false. intros Y. pose proof (srt i pre (a k) post Hi Es _ Y). lia. }
        destruct (set_row_ok _ _ _ wk _ (a k) (fun r => rw_set_shared1 (rw_shared1 r - 1) r) (shape v (fupd h1 (a k) (h1 (a k) - 1)) (r2 v) fs (cl v) (fupd f2 i (q - 1)) (me v)) Rk) as (w4 & E4 & R4);
          [lia| |reflexivity|reflexivity|reflexivity|].
        { intros j. unfold vrow. cbn. unfold fupd. destruct (a k =? j) eqn:Y; [|reflexivity]. apply Z.eqb_eq in Y. subst j. reflexivity. }
        rewrite E4. exists w4. split; [reflexivity|]. eexists. split; [exact R4|]. intros r Hr'. unfold memb. rewrite existsb_app. cbn [existsb]. rewrite orb_false_r. fold (memb r pre). unfold fupd.
        rewrite (Z.eqb_sym r). destruct (Z.eqb_spec (a k) r) as [Y|Y]; [|rewrite orb_false_r; auto]. rewrite orb_true_r. rewrite <- Y, Hh by lia. rewrite Npre. lia.
      + exists g1. split; [exact R2|]. intros r Hr. cbn [memb existsb]. rewrite Hg by auto. lia.
      + rewrite E3. cbn [obind]. destruct (set_cs _ _ _ w3 _ i dead_principal R3) as (w4 & E4 & R4); [lia|]. rewrite E4. cbn [obind]. eexists. split; [reflexivity|]. cbn [fst snd].
        exists h1, (fupd fs i (-1)), (fupd f2 i (q - 1)). split; [exact R4|]. split; [now apply drop|]. intros r Hr. fold (E i) in H3. rewrite live_drop; auto.
    - cbn [fst snd]. exists (r1 v), fs, f2. split; [exact R|]. split; [exact Hd|]. intros r Hr. destruct (fm_row _ F r Hr) as (_ & _ & X & _). rewrite X. unfold tot, live. f_equal.
      symmetry. apply filter_all. intros c Hc. apply In_cols in Hc. destruct Hc as (Hc & Hrc). apply alive_true. apply He; auto. intros Y. rewrite Y in Hrc. contradiction.
    - cbn [fst snd] in *. exists w', g1, fs', f2', q'. auto.
  Qed.

  Lemma drop_row_ok dr w v g1 fs f2 : rep w (shape v g1 (r2 v) fs (cl v) f2 (me v)) -> formed v -> (forall r, 0 <= r < nr -> g1 r = zlen (live fs r)) ->
    exists w' g2 n2 md, ofold (drop_row dr) (zrange 0 nr) (w, nr, 0) = Done (w', n2, md) /\ rep w' (shape v g1 g2 fs (cl v) f2 (me v)) /\ 0 <= md /\
      forall r, 0 <= r < nr -> g2 r = -1 \/ g2 r = 0 /\ 1 <= g1 r <= md.
  Proof.
    intros R F Hg. destruct (zloop (fun i st => exists g2, rep (fst (fst st)) (shape v g1 g2 fs (cl v) f2 (me v)) /\ 0 <= snd st /\ (forall r, 0 <= r < i -> g2 r = -1 \/ g2 r = 0 /\ 1 <= g1 r <= snd st) /\
      forall r, i <= r < nr -> g2 r = 0) (drop_row dr) 0 nr nr0) with (s := (w, nr, 0)) as (((w' & k) & md) & E1 & g2 & R' & H0 & H1 & _).
    - intros i ((wi & k) & md) Hi (g2 & Ri & H0 & H1 & H2). cbn [fst snd] in *. unfold drop_row. rewrite (row_at_ok _ _ _ _ _ _ Ri) by lia. cbn [obind vrow shape r1 rw_shared1].
      pose proof (zlen_nonneg (live fs i)) as Nn. rewrite <- (Hg i Hi) in Nn. destruct (dr <? g1 i); cbn [orb]; [|destruct (Z.eqb_spec (g1 i) 0) as [Y|Y]].
      3:{ eexists. split; [reflexivity|]. cbn [fst snd]. exists g2. split; [exact Ri|]. destruct (Z.ltb_spec (g1 i) md); (split; [lia|]); split.
        2,4: intros r Hr; apply H2; lia.
        - intros r Hr. destruct (Z.eq_dec r i) as [->|N]; [right; rewrite H2; lia|apply H1; lia].
        - intros r Hr. destruct (Z.eq_dec r i) as [->|N]; [right; rewrite H2; lia|]. destruct (H1 r ltac:(lia)); lia. }
      all: destruct (set_r2 _ _ _ wi _ i dead Ri) as (w2 & E2 & R2); [lia|]; rewrite E2; cbn [obind]; eexists; (split; [reflexivity|]); cbn [fst snd]; exists (fupd g2 i (-1)); (split; [exact R2|]); (split; [exact H0|]); split.
      all: intros r Hr; unfold fupd; destruct (Z.eqb_spec i r) as [<-|N]; [|]; auto; try lia; try (apply H1; lia); apply H2; lia.
    - cbn [fst snd]. exists (r2 v). split; [exact R|]. split; [lia|]. split; [intros; lia|]. intros r Hr. apply (fm_row _ F r Hr).
    - cbn [fst snd] in *. exists w', g2, k, md. auto.
  Qed.

  (* ----- scoring ----- *)

  (** The live rows of a column, and the score they give it *)
  Definition rest (g2 : Z -> Z) (c : Z) : list Z := filter (fun r => alive (g2 r)) (E c).
  Definition worth (g1 : Z -> Z) (l : list Z) : Z := Z.min (zsum (fun r => g1 r - 1) l) n.

  Lemma score_entries_ok w v g1 g2 fs fl f2 m c : rep w (shape v g1 g2 fs fl f2 m) -> 0 <= c < n -> seg m (pt c) (pt (c + 1) - pt c) = E c ->
    (forall r, 0 <= r < nr -> 0 <= g2 r -> 1 <= g1 r) ->
    exists w' m' e, ofold (score_entry n) (zrange (pt c) (pt c + (pt (c + 1) - pt c))) (w, pt c, 0) = Done (w', e, worth g1 (rest g2 c)) /\ rep w' (shape v g1 g2 fs fl f2 m') /\
      compacted (fun r => alive (g2 r)) m (pt c) (pt c) (pt (c + 1)) m' e.
  Proof.
    intros R Hc Em Hg. pose proof (mono c Hc) as Mc. pose proof (pt_range c ltac:(lia)) as P1. pose proof (pt_range (c + 1) ltac:(lia)) as P2. pose proof (pt_range n ltac:(lia)) as Pn.
    destruct (seg_loop (fun pre st => snd st = worth g1 (filter (fun r => alive (g2 r)) pre) /\ exists m', rep (fst (fst st)) (shape v g1 g2 fs fl f2 m') /\
      compacted (fun r => alive (g2 r)) m (pt c) (pt c) (pt c + zlen pre) m' (snd (fst st))) (score_entry n) m (pt c) (pt (c + 1) - pt c)) with (st := (w, pt c, 0)) as (((w' & e) & sc) & E1 & Esc & m' & R' & C').
    - lia.
    - intros i pre post ((wk & e) & sc) Hi Es Ez (Esc & m' & Rk & Ck). cbn [fst snd] in *. rewrite Ez in Ck. replace (pt c + (i - pt c)) with i in Ck by lia. unfold score_entry.
      rewrite (mem_at_ok _ _ _ _ _ _ Rk) by lia. cbn [obind shape me]. rewrite (compacted_here _ _ _ _ _ _ _ i (proj1 Hi) (Z.le_refl _) Ck (Z.le_refl i)).
      assert (Hx : In (m i) (E c)) by (rewrite <- Em, Es; apply in_app_iff; right; now left). pose proof (rng c _ Hc Hx) as Hr.
      rewrite (row_at_ok _ _ _ _ _ _ Rk) by lia. cbn [obind vrow shape r1 r2 rw_shared1 rw_shared2]. rewrite filter_app. cbn [filter].
      pose proof (compacted_bound _ _ _ _ _ _ _ (proj1 Hi) Ck) as Eb. rewrite zlen_app, Ez. change (zlen [m i]) with 1. replace (pt c + (i - pt c + 1)) with (i + 1) by lia.
      destruct (alive (g2 (m i))) eqn:A; cbn [negb].
      + destruct (set_mem_ok _ _ _ wk _ e (m i) Rk) as (w2 & E2 & R2); [lia|]. rewrite E2. cbn [obind]. eexists. split; [reflexivity|]. cbn [fst snd]. split.
        * rewrite Esc. unfold worth. rewrite zsum_app. cbn. apply alive_true in A. pose proof (Hg _ Hr A). lia.
        * eexists. split; [exact R2|]. apply compacted_keep; auto; lia.
      + eexists. split; [reflexivity|]. cbn [fst snd]. split; [rewrite app_nil_r; exact Esc|]. exists m'. split; [exact Rk|]. apply compacted_skip; auto; lia.
    - cbn [fst snd]. split; [unfold worth; cbn; lia|]. exists m. split; [exact R|]. change (zlen (@nil Z)) with 0. rewrite Z.add_0_r. apply compacted_start.
    - cbn [fst snd] in *. rewrite seg_length in C' by lia. replace (pt c + (pt (c + 1) - pt c)) with (pt (c + 1)) in C' by lia. rewrite Em in Esc. exists w', m', e. split; [rewrite E1, Esc; reflexivity|]. auto.
  Qed.

  Lemma score_columns_ok w v g1 g2 fs f2 q : formed v -> rep w (shape v g1 g2 fs (cl v) f2 (me v)) -> dropped fs f2 q ->
    (forall r, 0 <= r < nr -> 0 <= g2 r -> 1 <= g1 r) ->
    exists w' fs' fl f2' m q', ofold (score_column n) (rev (zrange 0 n)) (w, q) = Done (w', q') /\ rep w' (shape v g1 g2 fs' fl f2' m) /\ dropped fs' f2' q' /\
      (forall c, 0 <= c < n -> 0 <= fs' c -> fl c = zlen (rest g2 c) /\ 1 <= fl c /\ seg m (pt c) (fl c) = rest g2 c /\ f2' c = worth g1 (rest g2 c)) /\
      (forall c, 0 <= c < n -> 0 <= fs c -> 0 <= fs' c \/ rest g2 c = []) /\ (forall c, 0 <= c < n -> 0 <= fs' c -> 0 <= fs c) /\
      (forall i, nnz <= i -> m i = me v i) /\ (forall i, 0 <= i < nnz -> 0 <= m i).
  Proof.
    intros F R Hd Hg.
    assert (Cov : forall i, 0 <= i < nnz -> 0 <= a i).
    { intros i Hi. assert (X : forall k, Z.of_nat k <= n -> 0 <= i < pt (Z.of_nat k) -> exists c, 0 <= c < Z.of_nat k /\ pt c <= i < pt (c + 1)).
      { induction k as [|k IH]; intros Hk Hik; [cbn in Hik; lia|]. destruct (Z_lt_dec i (pt (Z.of_nat k))) as [Y|Y]; [destruct IH as (c & X1 & X2); [lia|lia|]; exists c; split; [lia|exact X2]|].
        exists (Z.of_nat k). replace (Z.of_nat k + 1) with (Z.of_nat (Datatypes.S k)) by lia. lia. }
      destruct (X (Z.to_nat n)) as (c & X1 & X2); [lia|replace (Z.of_nat (Z.to_nat n)) with n by lia; exact Hi|]. apply (rng c (a i)); [lia|]. apply In_seg. exists i. split; [lia|reflexivity]. }
    destruct (zloop_down (fun i st => exists fs' fl f2' m, rep (fst st) (shape v g1 g2 fs' fl f2' m) /\ dropped fs' f2' (snd st) /\
      (forall c, i <= c < n -> 0 <= fs' c -> fl c = zlen (rest g2 c) /\ 1 <= fl c /\ seg m (pt c) (fl c) = rest g2 c /\ f2' c = worth g1 (rest g2 c)) /\
      (forall c, 0 <= c < n -> 0 <= fs c -> 0 <= fs' c \/ rest g2 c = []) /\ (forall c, 0 <= c < n -> 0 <= fs' c -> 0 <= fs c) /\
      (forall j, nnz <= j -> m j = me v j) /\ (forall j, 0 <= j < nnz -> 0 <= m j) /\ (forall c, 0 <= c < i -> fl c = pt (c + 1) - pt c) /\ (forall j, 0 <= j < pt i -> m j = a j))
      (score_column n) n n0) with (s := (w, q)) as ((w' & q') & E1 & fs' & fl & f2' & m & X1 & X2 & X3 & X4 & X5 & X6 & X7 & _).
    - intros i (wi & qi) Hi (gs & fl & gq & m & Ri & Hi1 & Hi2 & Hi3 & Hi4 & Hi5 & Hi6 & Hi7 & Hi8). cbn [fst snd] in *.
      pose proof (mono i Hi) as Mi. pose proof (pt_range i ltac:(lia)) as P1. pose proof (pt_range (i + 1) ltac:(lia)) as P2.
      unfold score_column. rewrite (col_at_ok _ _ _ _ _ _ Ri) by lia. cbn [obind vcol shape cs cl cl_start cl_length]. destruct (alive (gs i)) eqn:A.
      2:{ eexists. split; [reflexivity|]. cbn [fst snd]. exists gs, fl, gq, m. split; [exact Ri|]. split; [exact Hi1|]. split.
        { intros c Hc L. destruct (Z.eq_dec c i) as [->|N]; [apply alive_false in A; lia|apply Hi2; auto; lia]. }
        repeat (split; [assumption|]). split; [intros c Hc; apply Hi7; lia|intros j Hj; apply Hi8; lia]. }
      apply alive_true in A. rewrite (dp_alive _ _ _ i Hi1 Hi A). rewrite (Hi7 i) by lia.
      assert (Ei : seg m (pt i) (pt (i + 1) - pt i) = E i) by (apply seg_ext; intros j Hj; apply Hi8; lia).
      destruct (score_entries_ok wi v g1 g2 gs fl gq m i Ri Hi Ei Hg) as (w2 & m' & e & E2 & R2 & C2). rewrite E2. cbn [obind].
      pose proof (compacted_bound _ _ _ _ _ _ _ Mi C2) as Eb.
      assert (Ee : e - pt i = zlen (rest g2 i)). { destruct C2 as (X & _). rewrite X, Ei. unfold rest. lia. }
      assert (Sg : seg m' (pt i) (e - pt i) = rest g2 i). { assert (C3 : compacted (fun r => alive (g2 r)) m (pt i) (pt i) (pt i + (pt (i + 1) - pt i)) m' e) by (replace (pt i + (pt (i + 1) - pt i)) with (pt (i + 1)) by lia; exact C2). rewrite (compacted_seg _ _ _ _ (pt (i + 1) - pt i) _ _ ltac:(lia) C3), Ei. reflexivity. }
      assert (Mo : forall j, ~ (pt i <= j < pt (i + 1)) -> m' j = m j) by (intros j Hj; apply (compacted_out _ _ _ _ _ _ _ j C2); lia).
      assert (Mn : forall j, 0 <= j < nnz -> 0 <= m' j).
      { intros j Hj. destruct (Z_le_dec (pt i) j) as [Y|Y]; [|rewrite Mo by lia; auto]. destruct (Z_lt_dec j e) as [Y2|Y2].
        - assert (In (m' j) (rest g2 i)) as X by (rewrite <- Sg; apply In_seg; exists j; split; [lia|reflexivity]). apply filter_In in X. destruct X as (X & _). apply rng in X; [lia|exact Hi].
        - rewrite (compacted_out _ _ _ _ _ _ _ j C2) by lia. auto. }
      assert (Old : forall c, i + 1 <= c < n -> forall l, l = zlen (rest g2 c) -> seg m (pt c) l = rest g2 c -> seg m' (pt c) l = rest g2 c).
      { intros c Hc l _ X. rewrite <- X. apply seg_ext. intros j Hj. apply Mo. pose proof (pt_mono (i + 1) c ltac:(lia) ltac:(lia)). lia. }
      destruct (Z.eqb_spec (e - pt i) 0) as [Y|Y].
      + destruct (kill_ok w2 v _ _ _ _ _ _ i (qi - 1) R2 Hi) as (w3 & E3 & R3). rewrite E3. cbn [obind]. eexists. split; [reflexivity|]. cbn [fst snd]. do 4 eexists. split; [exact R3|].
        split; [now apply drop|]. split; [|split; [|split; [|split; [|split; [exact Mn|split]]]]].
        * intros c Hc. unfold fupd. destruct (Z.eqb_spec i c) as [<-|N]; [lia|]. intros L. destruct (Hi2 c ltac:(lia) L) as (Z1 & Z2 & Z3 & Z4). split; [exact Z1|]. split; [exact Z2|]. split; [|exact Z4]. apply Old; auto; lia.
        * intros c Hc L. unfold fupd. destruct (Z.eqb_spec i c) as [<-|N]; [right; apply zlen_0; lia|auto].
        * intros c Hc. unfold fupd. destruct (Z.eqb_spec i c) as [<-|N]; [lia|auto].
        * intros j Hj. rewrite Mo by lia. auto.
        * intros c Hc. apply Hi7. lia.
        * intros j Hj. rewrite Mo by lia. apply Hi8. lia.
      + destruct (set_col_ok _ _ _ w2 _ i (fun col => cl_set_shared2 (worth g1 (rest g2 i)) (cl_set_length (e - pt i) col)) (shape v g1 g2 gs (fupd fl i (e - pt i)) (fupd gq i (worth g1 (rest g2 i))) m') R2) as (w3 & E3 & R3);
          [lia| |reflexivity|reflexivity|reflexivity|].
        { intros j. unfold vcol. cbn. unfold fupd. destruct (i =? j) eqn:Z1; [|reflexivity]. apply Z.eqb_eq in Z1. subst j. reflexivity. }
        rewrite E3. cbn [obind]. eexists. split; [reflexivity|]. cbn [fst snd]. do 4 eexists. split; [exact R3|]. split.
        { constructor; [| |exact (dp_count _ _ _ Hi1)].
          - intros c Hc. unfold fupd. destruct (Z.eqb_spec i c) as [<-|N]; [left; exact (dp_alive _ _ _ i Hi1 Hi A)|exact (dp_start _ _ _ Hi1 c Hc)].
          - intros c c' Hc Hc' N Z1 Z2. rewrite !fupd_other by (intros <-; lia). now apply (dp_apart _ _ _ Hi1). }
        split; [|split; [exact Hi3|split; [exact Hi4|split; [|split; [exact Mn|split]]]]].
        * intros c Hc L. unfold fupd. destruct (Z.eqb_spec i c) as [<-|N]; [split; [exact Ee|]; split; [lia|]; split; [exact Sg|reflexivity]|].
          destruct (Hi2 c ltac:(lia) L) as (Z1 & Z2 & Z3 & Z4). split; [exact Z1|]. split; [exact Z2|]. split; [|exact Z4]. apply Old; auto; lia.
        * intros j Hj. rewrite Mo by lia. auto.
        * intros c Hc. rewrite fupd_other by lia. apply Hi7. lia.
        * intros j Hj. rewrite Mo by lia. apply Hi8. lia.
    - cbn [fst snd]. exists fs, (cl v), f2, (me v). split; [exact R|]. split; [exact Hd|]. split; [intros; lia|]. split; [auto|]. split; [auto|]. split; [auto|]. split; [|split].
      + intros j Hj. rewrite (fm_mem _ F) by auto. auto.
      + intros c Hc. apply (fm_col _ F c Hc).
      + exact (fm_mem _ F).
    - cbn [fst snd] in *. exists w', fs', fl, f2', m, q'. repeat (split; [assumption|]). assumption.
  Qed.

  (** Lines 785-805 *)
  Lemma hang_ok w v : rep w v -> (forall c, 0 <= c < n -> 0 <= cs v c -> 0 <= c2 v c <= n) ->
    exists w1 w' f3 f4 fh D, ofold (fun w c => set_head w c empty_link) (zrange 0 (n + 1)) w = Done w1 /\ ofold hang_column (rev (zrange 0 n)) w1 = Done w' /\ rep w' (up_lists v f3 f4 fh) /\
      lists n f3 f4 fh D nowhere /\ forall s c, In c (D s) <-> 0 <= c < n /\ 0 <= cs v c /\ c2 v c = s.
  Proof.
    intros R Hc2. destruct (zloop (fun i w' => exists fh, rep w' (up_lists v (c3 v) (c4 v) fh) /\ forall s, 0 <= s < i -> fh s = -1) (fun w c => set_head w c empty_link) 0 (n + 1)) with (s := w) as (w1 & E1 & fh & R1 & H1).
    - lia.
    - intros i wi Hi (fh & Ri & H). destruct (set_head_ok _ _ _ wi _ i empty_link Ri) as (w2 & E2 & R2); [lia|]. rewrite E2. exists w2. split; [reflexivity|]. exists (fupd fh i (-1)). split; [exact R2|].
      intros s Hs. unfold fupd. destruct (Z.eqb_spec i s); [reflexivity|]. apply H. lia.
    - exists (he v). split; [destruct v; exact R|]. intros; lia.
    - destruct (zloop_down (fun i w' => exists f3 f4 fh D, rep w' (up_lists v f3 f4 fh) /\ lists n f3 f4 fh D nowhere /\ forall s c, In c (D s) <-> i <= c < n /\ 0 <= cs v c /\ c2 v c = s) hang_column n n0)
        with (s := w1) as (w' & E2 & f3 & f4 & fh' & D & R2 & L2 & H2).
      + intros i wi Hi (f3 & f4 & gh & D & Ri & L & H). unfold hang_column. rewrite (col_at_ok _ _ _ _ _ _ Ri) by lia. cbn [obind vcol up_lists cs c2 cl_start cl_shared2].
        destruct (alive (cs v i)) eqn:A.
        * apply alive_true in A. destruct (link_ok nr n na wi _ D i (c2 v i) Ri L Hi (Hc2 i Hi A)) as (w2 & g3 & g4 & g5 & E2 & R2 & L2).
          { intros t X. apply H in X. lia. }
          rewrite E2. exists w2. split; [reflexivity|]. exists g3, g4, g5, (dupd D (c2 v i) (i :: D (c2 v i))). split; [exact R2|]. split; [exact L2|].
          intros s c. unfold dupd. destruct (Z.eqb_spec (c2 v i) s) as [Y|Y].
          -- cbn [In]. rewrite H. split; [intros [<-|X]; [lia|lia]|]. intros X. destruct (Z.eq_dec i c) as [|N]; [now left|right; lia].
          -- rewrite H. split; [lia|]. intros (X1 & X2 & X3). split; [|auto]. destruct (Z.eq_dec i c) as [<-|N]; [contradiction|lia].
        * apply alive_false in A. exists wi. split; [reflexivity|]. exists f3, f4, gh, D. split; [exact Ri|]. split; [exact L|]. intros s c. rewrite H. split; [lia|]. intros (X1 & X2 & X3). split; [|auto].
          destruct (Z.eq_dec i c) as [<-|N]; lia.
      + exists (c3 v), (c4 v), fh, nowhere. split; [exact R1|]. split.
        * constructor; try (intros; contradiction); try (intros; constructor). intros s Hs. cbn. apply H1. lia.
        * intros s c. cbn. split; [contradiction|lia].
      + exists w1, w', f3, f4, fh', D. split; [exact E1|]. split; [exact E2|]. split; [exact R2|]. split; [exact L2|exact H2].
  Qed.

  (** The first state of the search *)
  Lemma init_scoring_ok o w v : rep w v -> formed v -> exists w' v' nr2 n2 md D rt, init_scoring nr n o w = Done (w', nr2, n2, md) /\ rep w' v' /\
    inv nr n na nnz n2 none v' D rt nnz (2 * nnz) 0 0 md 1.
  Proof.
    intros R F. unfold init_scoring. cbv zeta.
    destruct (drop_empty_ok w v R F) as (w1 & fs1 & f21 & q1 & E1 & R1 & D1 & H1). rewrite E1. cbn [obind].
    destruct (drop_dense_ok (dense_count (dense_column_control o) (Z.min nr n) nr) w1 v fs1 f21 q1 F R1 D1 H1) as (w2 & g1 & fs2 & f22 & q2 & E2 & R2 & D2 & H2). rewrite E2. cbn [obind].
    destruct (drop_row_ok (dense_count (dense_row_control o) n n) w2 v g1 fs2 f22 R2 F H2) as (w3 & g2 & nr2 & md & E3 & R3 & Hmd & H3). rewrite E3. cbn [obind].
    assert (Hg : forall r, 0 <= r < nr -> 0 <= g2 r -> 1 <= g1 r) by (intros r Hr X; destruct (H3 r Hr); lia).
    destruct (score_columns_ok w3 v g1 g2 fs2 f22 q2 F R3 D2 Hg) as (w4 & fs & fl & f2 & m & q & E4 & R4 & D4 & Hl & Hk & Ho & Mo & Mn). rewrite E4. cbn [obind].
    assert (Wn : forall c, 0 <= c < n -> 0 <= worth g1 (rest g2 c) <= n).
    { intros c Hc. unfold worth. assert (0 <= zsum (fun r => g1 r - 1) (rest g2 c)); [|lia]. apply zsum_nonneg. intros r Hr. apply filter_In in Hr. destruct Hr as (X & Y). apply alive_true in Y. pose proof (Hg r (rng c r Hc X) Y). lia. }
    destruct (hang_ok w4 _ R4) as (w5 & w6 & f3 & f4 & fh & D & E5 & E6 & R6 & L6 & H6).
    { intros c Hc L. cbn [shape cs c2] in *. destruct (Hl c Hc L) as (_ & _ & _ & X). rewrite X. auto. }
    rewrite E5. cbn [obind]. rewrite E6. cbn [obind]. cbn [shape cs c2] in H6.
    set (v6 := up_lists (shape v g1 g2 fs fl f2 m) f3 f4 fh) in *. exists w6, v6, nr2, q, md, D, (fun c => c). split; [reflexivity|]. split; [exact R6|].
    pose proof (dp_range _ _ _ D4) as Hq. pose proof (pt_range n ltac:(lia)) as Pn.
    assert (Lr : forall r, 0 <= r < nr -> 0 <= g2 r -> g1 r = zlen (live fs r) /\ 1 <= g1 r <= md).
    { intros r Hr L. split; [|destruct (H3 r Hr); lia]. rewrite H2 by auto. f_equal. apply filter_ext_In. intros c Hc. apply In_cols in Hc. destruct Hc as (Hc & Hrc).
      destruct (alive (fs2 c)) eqn:A; symmetry.
      - apply alive_true in A. destruct (Hk c Hc A) as [X|X]; [now apply alive_true|]. exfalso. assert (Y : In r (rest g2 c)) by (apply filter_In; split; [exact Hrc|now apply alive_true]). rewrite X in Y. contradiction.
      - apply alive_false. apply alive_false in A. destruct (Z_lt_dec (fs c) 0) as [X|X]; [exact X|]. pose proof (Ho c Hc ltac:(lia)). lia. }
    assert (Rr : forall r, 0 <= r < nr -> seg m (S r) (tot r) = cols r n).
    { intros r Hr. rewrite <- (fm_rcols _ F r Hr). unfold rcols. destruct (fm_row _ F r Hr) as (X1 & X2 & _). rewrite X1, X2. apply seg_ext. intros i Hi. pose proof (S_ge r). apply Mo. lia. }
    assert (Rc : forall r, 0 <= r < nr -> rcols v6 r = cols r n).
    { intros r Hr. unfold rcols. cbn [v6 up_lists shape rs rl me]. destruct (fm_row _ F r Hr) as (X1 & X2 & _). unfold v6. cbn [up_lists shape rs rl me]. rewrite X1, X2. auto. }
    assert (Cr : forall c, 0 <= c < n -> 0 <= fs c -> crows v6 c = rest g2 c).
    { intros c Hc L. unfold crows, v6. cbn [up_lists shape cs cl me]. rewrite (dp_alive _ _ _ c D4 Hc L). apply (Hl c Hc L). }
    assert (One : forall c, 0 <= c < n -> c1 v6 c = 1) by (intros c Hc; apply (fm_col _ F c Hc)).
    assert (LiveR : forall r, liver nr v6 r -> 0 <= r < nr /\ 0 <= g2 r) by (intros r X; exact X).
    assert (LiveC : forall c, livec n v6 c -> 0 <= c < n /\ 0 <= fs c) by (intros c X; exact X).
    constructor.
    - constructor.
      + lia.
      + intros c Hc. destruct (LiveC c Hc) as (X1 & X2). change (cl v6 c) with (fl c). change (cs v6 c) with (fs c). rewrite (dp_alive _ _ _ c D4 X1 X2). destruct (Hl c X1 X2) as (Y1 & Y2 & _).
        assert (fl c <= pt (c + 1) - pt c). { rewrite Y1. pose proof (zlen_filter (fun r => alive (g2 r)) (E c)) as Z1. unfold E in Z1 at 2. rewrite seg_length in Z1 by (pose proof (mono c X1); lia). exact Z1. }
        pose proof (pt_range (c + 1) ltac:(lia)). lia.
      + intros c c' Hc Hc' Lt. destruct (LiveC c Hc) as (X1 & X2). destruct (LiveC c' Hc') as (X3 & X4). change (cl v6 c) with (fl c). change (cs v6 c) with (fs c). change (cs v6 c') with (fs c').
        rewrite (dp_alive _ _ _ c D4 X1 X2), (dp_alive _ _ _ c' D4 X3 X4). destruct (Hl c X1 X2) as (Y1 & Y2 & _).
        assert (fl c <= pt (c + 1) - pt c). { rewrite Y1. pose proof (zlen_filter (fun r => alive (g2 r)) (E c)) as Z1. unfold E in Z1 at 2. rewrite seg_length in Z1 by (pose proof (mono c X1); lia). exact Z1. }
        pose proof (pt_mono (c + 1) c' ltac:(lia) ltac:(lia)). lia.
      + intros r Hr. destruct (LiveR r Hr) as (X1 & X2). destruct (fm_row _ F r X1) as (Y1 & Y2 & _). change (rs v6 r) with (rs v r). change (rl v6 r) with (rl v r). rewrite Y1, Y2.
        pose proof (S_ge r). pose proof (S_le r X1). destruct (Lr r X1 X2) as (Z1 & Z2). pose proof (zlen_filter (fun c => alive (fs c)) (cols r n)) as Z3. fold (live fs r) in Z3. fold (tot r) in Z3. lia.
      + intros r r' Hr Hr' N. destruct (LiveR r Hr) as (X1 & X2). destruct (LiveR r' Hr') as (X3 & X4). destruct (fm_row _ F r X1) as (Y1 & Y2 & _). destruct (fm_row _ F r' X3) as (Y3 & Y4 & _).
        change (rs v6 r) with (rs v r). change (rl v6 r) with (rl v r). change (rs v6 r') with (rs v r'). change (rl v6 r') with (rl v r'). rewrite Y1, Y2, Y3, Y4.
        destruct (Z.lt_total r r') as [Z1|[Z1|Z1]]; [left; apply S_apart; lia|contradiction|right; apply S_apart; lia].
      + intros i Hi. change (me v6 i) with (m i). destruct (Z_lt_dec i nnz) as [X|X]; [apply Mn; lia|]. destruct (covered i ltac:(lia)) as (r & Hr & Hir).
        assert (Y : In (m i) (cols r n)) by (rewrite <- Rr by exact Hr; apply In_seg; exists i; auto). apply In_cols in Y. lia.
    - lia.
    - intros c Hc. destruct (LiveC c Hc) as (X1 & X2). split; [apply (Hl c X1 X2)|]. split; [|rewrite One by exact X1; lia]. rewrite Cr by auto. apply NoDup_filter, E_NoDup. exact X1.
    - intros c r Hc Hr. destruct (LiveC c Hc) as (X1 & X2). rewrite Cr in Hr by auto. apply filter_In in Hr. destruct Hr as (Y1 & Y2). apply alive_true in Y2. pose proof (rng c r X1 Y1) as Y3. split; [split; assumption|].
      rewrite Rc by exact Y3. apply In_cols. auto.
    - intros r Hr. destruct (LiveR r Hr) as (X1 & X2). rewrite Rc by exact X1. split; [apply cols_NoDup|]. intros c Hc. apply In_cols in Hc. apply Hc.
    - intros r c Hr Hc Hi. destruct (LiveR r Hr) as (X1 & X2). destruct (LiveC c Hc) as (X3 & X4). rewrite Rc in Hi by exact X1. apply In_cols in Hi. rewrite Cr by auto. apply filter_In. split; [apply Hi|now apply alive_true].
    - intros r Hr. destruct (LiveR r Hr) as (X1 & X2). destruct (Lr r X1 X2) as (Y1 & Y2). change (r1 v6 r) with (g1 r). split; [|exact Y2]. rewrite Y1. rewrite Rc by exact X1. rewrite (zsum_ext _ (fun _ => 1)); [rewrite zsum_one; reflexivity|].
      intros c Hc. apply filter_In in Hc. apply One. destruct Hc as (Hc & _). apply In_cols in Hc. apply Hc.
    - lia.
    - intros r Hr. change (r2 v6 r) with (g2 r). destruct (H3 r Hr); lia.
    - lia.
    - intros c Hc _. destruct (LiveC c Hc) as (X1 & X2). change (c2 v6 c) with (f2 c). destruct (Hl c X1 X2) as (_ & _ & _ & X). rewrite X. apply Wn. exact X1.
    - intros c L Hc _ N HL. destruct (LiveC c Hc) as (X1 & X2). change (c2 v6 c) with (f2 c). destruct (Hl c X1 X2) as (_ & _ & _ & X). rewrite X.
      assert (Z1 : zsum (c1 v6) L = zlen L). { rewrite (zsum_ext _ (fun _ => 1)); [apply zsum_one|]. intros x Hx. apply One. apply (HL x Hx). }
      rewrite Z1. unfold worth. apply Z.min_glb.
      + rewrite <- (zsum_one L). transitivity (zsum (fun r => zsum (fun _ => 1) (filter (fun x => negb (x =? c)) (live fs r))) (rest g2 c)).
        * apply zsum_union; [exact N| |intros; lia]. intros x Hx. destruct (HL x Hx) as (Y1 & Y2 & r & Y3 & Y4). exists r. rewrite Cr in Y3 by auto. split; [exact Y3|]. apply filter_In. split.
          -- apply filter_In. assert (0 <= r < nr) by (apply filter_In in Y3; destruct Y3 as (Y3 & _); eapply rng; eauto). rewrite Rc in Y4 by auto. split; [exact Y4|]. apply alive_true. apply Y1.
          -- destruct (Z.eqb_spec x c); [contradiction|reflexivity].
        * apply zsum_le. intros r Hr. rewrite zsum_one. apply filter_In in Hr. destruct Hr as (Y1 & Y2). apply alive_true in Y2. destruct (Lr r (rng c r X1 Y1) Y2) as (Y3 & _). rewrite Y3.
          assert (zlen (filter (fun x => negb (x =? c)) (live fs r)) + 1 <= zlen (live fs r)); [|lia]. apply (zlen_filter_lt _ _ c); [|now rewrite Z.eqb_refl].
          apply filter_In. split; [apply In_cols; auto|now apply alive_true].
      + rewrite <- Z1. transitivity (zsum (c1 v6) (zrange 0 n)).
        * apply zsum_incl; [exact N| |]; intros x Hx; [apply In_zrange; apply (HL x Hx)|]. apply In_zrange in Hx. rewrite One by auto. lia.
        * rewrite (zsum_ext _ (fun _ => 1)); [rewrite zsum_one; unfold zlen; rewrite zrange_length; lia|]. intros x Hx. apply In_zrange in Hx. now apply One.
    - exact L6.
    - intros s c. rewrite H6. split.
      + intros (X1 & X2 & X3). split; [split; assumption|]. split; [intros []|exact X3].
      + intros ((X1 & X2) & _ & X3). auto.
    - rewrite <- (dp_count _ _ _ D4), Z.sub_0_r. rewrite (zsum_ext _ (fun _ => 1)); [rewrite zsum_one; reflexivity|]. intros c Hc. apply filter_In in Hc. destruct Hc as (Hc & _). apply In_zrange in Hc. now apply One.
    - lia.
    - lia.
    - assert (No2 : forall c, 0 <= c < n -> cs v6 c <> -2).
      { intros c Hc. change (cs v6 c) with (fs c). destruct (dp_start _ _ _ D4 c Hc) as [X|(X & _)]; [pose proof (pt_range c ltac:(lia)); lia|lia]. }
      constructor.
      + intros j Hj. apply cs_here; auto.
      + intros r Hr _. rewrite One by auto. symmetry. transitivity (zlen [r]); [|reflexivity]. apply zlen_same; [apply NoDup_filter, zrange_NoDup|repeat constructor; intros []|].
        intros x. rewrite filter_In, In_zrange, Z.eqb_eq. cbn [In]. split; [intros (_ & ->); now left|]. intros [<-|[]]. auto.
      + intros j Hj X. elim (No2 j Hj X).
      + intros j Hj X. left. change (cs v6 j) with (fs j) in *. destruct (dp_start _ _ _ D4 j Hj) as [Y|(Y & _)]; [pose proof (pt_range j ltac:(lia)); lia|exact Y].
    - constructor.
      + intros r Hr X. right. change (c2 v6 r) with (f2 r). rewrite One by auto. change (cs v6 r) with (fs r) in X. destruct (dp_start _ _ _ D4 r Hr) as [Y|(_ & Y)]; [pose proof (pt_range r ltac:(lia)); lia|lia].
      + intros r r' Hr Hr' N X Y. rewrite !One by auto. change (c2 v6 r) with (f2 r). change (c2 v6 r') with (f2 r'). pose proof (dp_apart _ _ _ D4 r r' Hr Hr' N X Y). lia.
  Qed.
End Init.
