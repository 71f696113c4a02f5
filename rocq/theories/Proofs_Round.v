(** One round of the elimination keeps the invariant: the argument apart from the program *)
From Coq Require Import List Arith ZArith Lia Bool Permutation.
From Verif Require Import Outcome Lib ModelColamd Spec_Colamd Proofs_Zlist Proofs_Order Proofs_View Proofs_DegreeLists Proofs_Absorb Proofs_Collect Proofs_Gather Proofs_Merge Proofs_Invariant.
Import ListNotations.
Local Open Scope Z_scope.

(** Each of the [L] is in some list [f r] with [r] in [R]. *)
Lemma zsum_union (T : Z -> Z) (f : Z -> list Z) R : forall L, NoDup L -> (forall x, In x L -> exists r, In r R /\ In x (f r)) ->
  (forall r x, In r R -> In x (f r) -> 0 <= T x) -> zsum T L <= zsum (fun r => zsum T (f r)) R.
Proof.
  induction R as [|r R IH]; intros L N H H0.
  - destruct L as [|x L]; [cbn; lia|]. destruct (H x (or_introl eq_refl)) as (r & [] & _).
  - rewrite zsum_cons. rewrite (zsum_split T (fun x => memb x (f r)) L).
    assert (A : zsum T (filter (fun x => memb x (f r)) L) <= zsum T (f r)).
    { apply zsum_incl; [now apply NoDup_filter| |intros x Hx; eapply H0; [now left|auto]].
      intros x Hx. apply filter_In in Hx. apply memb_In. tauto. }
    assert (C : zsum T (filter (fun x => negb (memb x (f r))) L) <= zsum (fun r => zsum T (f r)) R).
    { apply IH; [now apply NoDup_filter| |intros r' x Hr Hx; eapply H0; [right; exact Hr|auto]].
      intros x Hx. apply filter_In in Hx. destruct Hx as (Hx & M). apply negb_true_iff, memb_false in M.
      destruct (H x Hx) as (r' & [<-|Hr] & Hx'); [contradiction|eauto]. }
    lia.
Qed.

Section Round.
  Variables nr n na nnz n2 : Z.
  Hypothesis nr0 : 0 <= nr.
  Hypothesis n0 : 0 <= n.
  Notation liver := (liver nr).
  Notation livec := (livec n).
  Notation inv := (inv nr n na nnz n2).

  Variables (v : view) (D : Z -> list Z) (rt : Z -> Z) (B pf k ms md tag p : Z) (ag : bool).
  Hypothesis I : inv (eq p) v D rt B pf k ms md tag.
  Hypothesis Lp : livec v p.
  Hypothesis Ek : c2 v p = k.

  Variable P : list Z.
  Hypothesis NP : NoDup P.
  Hypothesis HP : forall x, In x P <-> livec v x /\ x <> p /\ exists r, In r (crows v p) /\ In x (rcols v r).

  (* ----- the marks after the subtraction ----- *)

  Definition ht (r : Z) : Z := zsum (c1 v) (filter (fun c => memb r (crows v c)) P).
  Variable g2 : Z -> Z.
  Hypothesis Hg : forall r, 0 <= r < nr -> g2 r =
    if memb r (crows v p) then -1 else if r2 v r <? 0 then r2 v r else if ht r =? 0 then r2 v r
    else if (r1 v r =? ht r) && ag then -1 else r1 v r - ht r + tag.

  Definition survives r := 0 <= r < nr /\ 0 <= g2 r.
  Definition keep c := filter (fun r => alive (g2 r)) (crows v c).
  (** The columns of row [r] outside of the pivot row *)
  Definition others r := filter (fun c => negb (memb c P)) (filter (alivec v) (rcols v r)).

  Lemma row_col r c : liver v r -> livec v c -> (In c (rcols v r) <-> In r (crows v c)).
  Proof.
    intros Lr Lc. split.
    - exact (in_rc _ _ _ _ _ _ _ _ _ _ _ _ _ _ _ I r c Lr Lc).
    - intros H. exact (proj2 (in_cr _ _ _ _ _ _ _ _ _ _ _ _ _ _ _ I c r Lc H)).
  Qed.
  Lemma col_row c r : livec v c -> In r (crows v c) -> liver v r.
  Proof. intros Lc H. exact (proj1 (in_cr _ _ _ _ _ _ _ _ _ _ _ _ _ _ _ I c r Lc H)). Qed.
  Lemma T1 c : livec v c -> 1 <= c1 v c.
  Proof. intros Lc. exact (proj2 (proj2 (in_col _ _ _ _ _ _ _ _ _ _ _ _ _ _ _ I c Lc))). Qed.
  Lemma P_live c : In c P -> livec v c /\ c <> p.
  Proof. intros H. apply HP in H. tauto. Qed.
  Lemma in_alive r c : liver v r -> (In c (filter (alivec v) (rcols v r)) <-> In c (rcols v r) /\ livec v c).
  Proof.
    intros Lr. rewrite filter_In. unfold alivec. rewrite alive_true. split.
    - intros (X & Y). split; auto. split; auto. exact (proj2 (in_row _ _ _ _ _ _ _ _ _ _ _ _ _ _ _ I r Lr) c X).
    - intros (X & _ & Y). auto.
  Qed.

  Lemma survives_live r : survives r -> liver v r /\ ~ In r (crows v p).
  Proof.
    intros (Hr & S). rewrite Hg in S by auto. destruct (memb r (crows v p)) eqn:M; [lia|]. apply memb_false in M. split; auto.
    split; auto. destruct (Z.ltb_spec (r2 v r) 0); lia.
  Qed.
  Lemma ht_split r : liver v r -> r1 v r - ht r = zsum (c1 v) (others r).
  Proof.
    intros Lr. destruct (in_deg _ _ _ _ _ _ _ _ _ _ _ _ _ _ _ I r Lr) as (E & _). rewrite E.
    destruct (in_row _ _ _ _ _ _ _ _ _ _ _ _ _ _ _ I r Lr) as (Nr & _).
    rewrite (zsum_split (c1 v) (fun c => memb c P) (filter (alivec v) (rcols v r))). unfold others, ht.
    rewrite (zsum_same (c1 v) (filter (fun c => memb r (crows v c)) P) (filter (fun c => memb c P) (filter (alivec v) (rcols v r)))); [lia| | |].
    - now apply NoDup_filter.
    - now apply NoDup_filter, NoDup_filter.
    - intros c. rewrite filter_In, memb_In. rewrite (filter_In (fun c => memb c P)), memb_In, in_alive by auto. split.
      + intros (X & Y). pose proof (proj1 (P_live c X)) as Lc. split; auto. split; auto. now apply row_col.
      + intros ((X & Y) & Z). split; auto. now apply row_col.
  Qed.
  Lemma others_nonneg r : liver v r -> 0 <= zsum (c1 v) (others r).
  Proof.
    intros Lr. apply zsum_nonneg. intros c Hc. apply filter_In in Hc. destruct Hc as (Hc & _). apply in_alive in Hc; auto. pose proof (T1 c (proj2 Hc)). lia.
  Qed.
  Lemma ht_le r : liver v r -> ht r <= r1 v r.
  Proof. intros Lr. pose proof (ht_split r Lr). pose proof (others_nonneg r Lr). lia. Qed.
  Lemma ht_pos r c : In c P -> In r (crows v c) -> 1 <= ht r.
  Proof.
    intros Hc Hr. unfold ht. assert (X : In c (filter (fun c => memb r (crows v c)) P)) by (apply filter_In; split; auto; now apply memb_In).
    rewrite (zsum_remove (c1 v) c) by (auto; now apply NoDup_filter). pose proof (T1 c (proj1 (P_live c Hc))).
    assert (0 <= zsum (c1 v) (filter (fun y => negb (y =? c)) (filter (fun c => memb r (crows v c)) P))); [|lia].
    apply zsum_nonneg. intros y Hy. apply filter_In in Hy. destruct Hy as (Hy & _). apply filter_In in Hy. pose proof (T1 y (proj1 (P_live y (proj1 Hy)))). lia.
  Qed.
  Lemma mark_of r c : survives r -> In c P -> In r (crows v c) -> g2 r - tag = zsum (c1 v) (others r).
  Proof.
    intros S Hc Hr. destruct (survives_live r S) as (Lr & N). destruct S as (Hrr & S). rewrite Hg in * by auto. rewrite (proj2 (memb_false _ _) N) in *.
    destruct Lr as (_ & Al). destruct (Z.ltb_spec (r2 v r) 0); [lia|]. pose proof (ht_pos r c Hc Hr). destruct (Z.eqb_spec (ht r) 0); [lia|].
    destruct ((r1 v r =? ht r) && ag); [lia|]. rewrite <- ht_split by (split; auto). lia.
  Qed.
  (** A column outside of the pivot row loses no row. *)
  Lemma outside_keeps c r : livec v c -> c <> p -> ~ In c P -> In r (crows v c) -> survives r.
  Proof.
    intros Lc Nc NPc Hr. pose proof (col_row c r Lc Hr) as Lr. split; [exact (proj1 Lr)|]. rewrite Hg by exact (proj1 Lr).
    assert (Np : ~ In r (crows v p)). { intros X. apply NPc. apply HP. split; auto. split; auto. exists r. split; auto. now apply row_col. }
    rewrite (proj2 (memb_false _ _) Np). destruct (Z.ltb_spec (r2 v r) 0); [destruct Lr; lia|].
    destruct (Z.eqb_spec (ht r) 0); [lia|]. pose proof (in_tag _ _ _ _ _ _ _ _ _ _ _ _ _ _ _ I).
    assert (1 <= r1 v r - ht r).
    { rewrite ht_split by auto. assert (X : In c (others r)).
      { apply filter_In. split; [apply in_alive; auto; split; auto; now apply row_col|]. now rewrite (proj2 (memb_false _ _) NPc). }
      rewrite (zsum_remove (c1 v) c); [|apply NoDup_filter, NoDup_filter, (in_row _ _ _ _ _ _ _ _ _ _ _ _ _ _ _ I r Lr)|exact X].
      pose proof (T1 c Lc). assert (0 <= zsum (c1 v) (filter (fun y => negb (y =? c)) (others r))); [|lia].
      apply zsum_nonneg. intros y Hy. apply filter_In in Hy. destruct Hy as (Hy & _). apply filter_In in Hy. destruct Hy as (Hy & _). apply in_alive in Hy; auto.
      pose proof (T1 y (proj2 Hy)). lia. }
    destruct (Z.eqb_spec (r1 v r) (ht r)); [lia|]. cbn [andb]. lia.
  Qed.
  Lemma in_keep c r : livec v c -> (In r (keep c) <-> In r (crows v c) /\ survives r).
  Proof.
    intros Lc. unfold keep. rewrite filter_In, alive_true. split.
    - intros (X & Y). split; auto. split; auto. exact (proj1 (col_row c r Lc X)).
    - intros (X & _ & Y). auto.
  Qed.
  Lemma keep_shorter c : In c P -> zlen (keep c) < cl v c.
  Proof.
    intros Hc. destruct (proj1 (HP c) Hc) as (Lc & Nc & r & Hr & Hrc). pose proof (col_row p r Lp Hr) as Lr.
    assert (X : In r (crows v c)) by (apply row_col; auto).
    replace (cl v c) with (zlen (crows v c)).
    2:{ apply seg_length. apply (ly_col _ _ _ _ _ _ (in_lay _ _ _ _ _ _ _ _ _ _ _ _ _ _ _ I) c Lc). }
    unfold keep. apply Z.lt_le_trans with (zlen (filter (fun r => alive (g2 r)) (crows v c)) + 1); [lia|]. apply (zlen_filter_lt _ _ r X). apply alive_false. rewrite Hg by exact (proj1 Lr). rewrite (proj2 (memb_In _ _) Hr). lia.
  Qed.

  (* ----- after scoring and merging ----- *)

  Variables (k' deg' : Z) (fl5 fs5 f25 m5 fs6 f16 f26 : Z -> Z).
  Definition gone c : bool := zlen (keep c) =? 0.
  Hypothesis Ek' : k' = k + c1 v p + zsum (c1 v) (filter gone P).
  Hypothesis Edeg : deg' = zsum (c1 v) P - zsum (c1 v) (filter gone P).
  Hypothesis Hgone : forall c, In c P -> gone c = true -> fs5 c = -1 /\ k + c1 v p <= f25 c /\ f25 c + c1 v c <= k'.
  Hypothesis Hstay : forall c, In c P -> gone c = false -> fs5 c = cs v c /\ f25 c = Z.min (zsum (fun r => g2 r - tag) (keep c)) n /\
    seg m5 (fs5 c) (fl5 c) = keep c.
  Hypothesis Hrest : forall c, ~ In c P -> fs5 c = cs v c /\ f25 c = c2 v c.
  Hypothesis Hgap : forall c c', In c P -> In c' P -> gone c = true -> gone c' = true -> c <> c' ->
    f25 c + c1 v c <= f25 c' \/ f25 c' + c1 v c' <= f25 c.
  Hypothesis M : merges P m5 fl5 fs5 (c1 v) f25 fs6 f16 f26.

  Definition fs7 := fupd fs6 p (-1).
  Definition live7 c := 0 <= c < n /\ 0 <= fs7 c.
  Definition final c := Z.min (f26 c + deg' - f16 c) (n - k' - f16 c).

  Lemma NPp : ~ In p P. Proof. intros X. apply P_live in X. tauto. Qed.
  Lemma gone_nil c : gone c = true <-> keep c = [].
  Proof. unfold gone. rewrite Z.eqb_eq. split; [apply zlen_0|now intros ->]. Qed.
  Lemma live5 c : In c P -> (0 <= fs5 c <-> gone c = false).
  Proof.
    intros Hc. destruct (gone c) eqn:G.
    - destruct (Hgone c Hc G) as (X & _). split; [lia|congruence].
    - destruct (Hstay c Hc G) as (X & _). split; auto. intros _. rewrite X. exact (proj2 (proj1 (P_live c Hc))).
  Qed.
  Lemma same_keep y z : In y P -> In z P -> 0 <= fs5 y -> 0 <= fs5 z -> fl5 y = fl5 z -> seg m5 (fs5 y) (fl5 y) = seg m5 (fs5 z) (fl5 z) -> keep y = keep z.
  Proof.
    intros Hy Hz Ly Lz E Es. apply live5 in Ly; auto. apply live5 in Lz; auto. destruct (Hstay y Hy Ly) as (_ & _ & <-), (Hstay z Hz Lz) as (_ & _ & <-). exact Es.
  Qed.
  Lemma live7_iff c : live7 c <-> livec v c /\ c <> p /\ 0 <= fs6 c.
  Proof.
    unfold live7, fs7, fupd. destruct (Z.eqb_spec p c) as [<-|N]; [split; [lia|tauto]|]. split.
    - intros (Hc & L6). split; [|auto]. destruct (merges_live _ _ _ _ _ _ _ _ _ c M L6) as (E & _). destruct (in_dec Z.eq_dec c P) as [X|X].
      + exact (proj1 (P_live c X)).
      + destruct (Hrest c X) as (Y & _). split; auto. lia.
    - intros ((Hc & _) & _ & L6). auto.
  Qed.
  Lemma live7_out c : ~ In c P -> (live7 c <-> livec v c /\ c <> p).
  Proof.
    intros Hc. rewrite live7_iff. destruct (merges_out _ _ _ _ _ _ _ _ _ M c Hc) as (E & _). destruct (Hrest c Hc) as (E' & _). rewrite E, E'.
    unfold Proofs_Collect.livec. tauto.
  Qed.
  Lemma live7_in c : In c P -> live7 c -> gone c = false /\ fs6 c = cs v c /\ f26 c = Z.min (zsum (fun r => g2 r - tag) (keep c)) n.
  Proof.
    intros Hc L. apply live7_iff in L. destruct L as (_ & _ & L). destruct (merges_live _ _ _ _ _ _ _ _ _ c M L) as (E & E2).
    assert (G : gone c = false) by (apply live5; auto; lia). destruct (Hstay c Hc G) as (X & Y & _). rewrite E, E2. auto.
  Qed.
  Lemma T7 c : live7 c -> 1 <= f16 c.
  Proof.
    intros L. apply live7_iff in L. destruct L as (Lc & Nc & L). destruct (in_dec Z.eq_dec c P) as [X|X].
    - apply (merges_pos _ _ _ _ _ _ _ _ _ M); auto. intros y _ Hy. apply T1, P_live, Hy.
    - destruct (merges_out _ _ _ _ _ _ _ _ _ M c X) as (_ & E & _). rewrite E. now apply T1.
  Qed.

  (** Sums over sets of columns that are closed under having the same rows *)
  Lemma sum7 l : NoDup l -> ~ In p l ->
    (forall y z, In y P -> In z P -> gone y = false -> gone z = false -> keep y = keep z -> In y l -> In z l) ->
    zsum f16 (filter (lives fs7) l) = zsum (c1 v) (filter (lives fs5) l).
  Proof.
    intros Nl Np Hl. rewrite <- (merges_sum _ _ _ _ _ _ _ _ _ l M Nl).
    - f_equal. apply filter_ext_In. intros c Hc. unfold lives, fs7. rewrite fupd_other by (intros ->; contradiction). reflexivity.
    - intros y z Hy Hz Ly Lz E Es. apply Hl; auto; [apply live5; auto|apply live5; auto|]. now apply same_keep.
  Qed.
  Lemma row_sum r : survives r -> zsum f16 (filter (lives fs7) (rcols v r)) = r1 v r.
  Proof.
    intros S. destruct (survives_live r S) as (Lr & Np). destruct (in_row _ _ _ _ _ _ _ _ _ _ _ _ _ _ _ I r Lr) as (Nr & Rr).
    rewrite sum7.
    - rewrite (proj1 (in_deg _ _ _ _ _ _ _ _ _ _ _ _ _ _ _ I r Lr)). f_equal. apply filter_ext_In. intros c Hc. unfold lives, alivec, alive.
      destruct (in_dec Z.eq_dec c P) as [X|X]; [|now rewrite (proj1 (Hrest c X))].
      assert (G : gone c = false).
      { destruct (gone c) eqn:G; auto. apply gone_nil in G. pose proof (proj1 (P_live c X)) as Lc.
        assert (Y : In r (keep c)) by (apply in_keep; auto; split; auto; now apply row_col). rewrite G in Y. destruct Y. }
      now rewrite (proj1 (Hstay c X G)).
    - exact Nr.
    - intros X. apply Np. now apply row_col.
    - intros y z Hy Hz _ _ E X. pose proof (proj1 (P_live y Hy)) as Ly. pose proof (proj1 (P_live z Hz)) as Lz. apply row_col in X; auto.
      assert (Y : In r (keep z)) by (rewrite <- E; apply in_keep; auto). apply in_keep in Y; auto. apply row_col; tauto.
  Qed.
  Lemma lives5_P : filter (lives fs5) P = filter (fun c => negb (gone c)) P.
  Proof.
    apply filter_ext_In. intros c Hc. destruct (gone c) eqn:G; cbn [negb].
    - apply lives_false. destruct (Hgone c Hc G) as (X & _). lia.
    - apply lives_true. now apply live5.
  Qed.
  Lemma pivot_sum : zsum f16 (filter (lives fs7) P) = deg'.
  Proof.
    rewrite sum7; auto using NPp. rewrite lives5_P, Edeg. rewrite (zsum_split (c1 v) gone P). lia.
  Qed.
  Lemma total7 : zsum f16 (filter (lives fs7) (zrange 0 n)) = n2 - k'.
  Proof.
    set (l := filter (fun c => negb (c =? p)) (zrange 0 n)).
    assert (E : filter (lives fs7) (zrange 0 n) = filter (lives fs7) l).
    { unfold l. rewrite filter_filter. apply filter_ext. intros c. unfold lives, fs7, fupd. rewrite (Z.eqb_sym p c). destruct (Z.eqb_spec c p); reflexivity. }
    rewrite E. assert (Nl : NoDup l) by apply NoDup_filter, zrange_NoDup. rewrite sum7.
    - pose proof (in_total _ _ _ _ _ _ _ _ _ _ _ _ _ _ _ I) as T.
      rewrite (zsum_remove (c1 v) p) in T by (apply upto_NoDup || (apply in_upto; auto)).
      rewrite (zsum_split (c1 v) (fun c => memb c P && gone c)) in T.
      rewrite (zsum_same (c1 v) (filter (fun c => memb c P && gone c) _) (filter gone P)) in T.
      + rewrite (zsum_same (c1 v) (filter (fun c => negb (memb c P && gone c)) _) (filter (lives fs5) l)) in T; [lia| | |].
        * apply NoDup_filter, NoDup_filter, upto_NoDup.
        * now apply NoDup_filter.
        * intros c. unfold l, cols_upto. rewrite !filter_In, In_zrange, lives_true. unfold alivec. rewrite alive_true.
          destruct (in_dec Z.eq_dec c P) as [X|X].
          -- rewrite (proj2 (memb_In _ _) X). cbn [andb]. rewrite !negb_true_iff, Z.eqb_neq, (live5 c X). pose proof (P_live c X) as ((Y1 & Y2) & Y3). tauto.
          -- rewrite (proj2 (memb_false _ _) X). cbn [andb negb]. rewrite (proj1 (Hrest c X)). tauto.
      + apply NoDup_filter, NoDup_filter, upto_NoDup.
      + now apply NoDup_filter.
      + intros c. unfold cols_upto. rewrite !filter_In, andb_true_iff, memb_In. rewrite In_zrange. unfold alivec. rewrite alive_true, negb_true_iff, Z.eqb_neq. split; [tauto|].
        intros (X & G). pose proof (P_live c X) as ((Y1 & Y2) & Y3). tauto.
    - exact Nl.
    - unfold l. rewrite filter_In. intros (_ & X). rewrite Z.eqb_refl in X. discriminate.
    - intros y z Hy Hz _ _ _ _. unfold l. apply filter_In. pose proof (P_live z Hz) as ((Y1 & _) & Y2). split; [now apply In_zrange|]. apply negb_true_iff, Z.eqb_neq. exact Y2.
  Qed.
  Lemma sum7_le L : NoDup L -> (forall x, In x L -> live7 x) -> zsum f16 L <= n2 - k'.
  Proof.
    intros NL HL. rewrite <- total7. apply zsum_incl; auto.
    - intros x Hx. apply filter_In. destruct (HL x Hx) as (X & Y). split; [now apply In_zrange|now apply lives_true].
    - intros x Hx. apply filter_In in Hx. destruct Hx as (X & Y). apply In_zrange in X. apply lives_true in Y. pose proof (T7 x (conj X Y)). lia.
  Qed.

  (** The neighbours of a column outside of the pivot row *)
  Lemma nbr_out c L : livec v c -> c <> p -> ~ In c P -> NoDup L ->
    (forall x, In x L -> live7 x /\ x <> c /\ exists r, In r (crows v c) /\ In x (rcols v r)) -> zsum f16 L <= c2 v c.
  Proof.
    intros Lc Nc Hc NL HL. set (l := filter (fun x => negb (x =? c) && negb (x =? p) && existsb (fun r => memb x (rcols v r)) (crows v c)) (zrange 0 n)).
    assert (Il : forall x, In x l <-> 0 <= x < n /\ x <> c /\ x <> p /\ exists r, In r (crows v c) /\ In x (rcols v r)).
    { intros x. unfold l. rewrite filter_In, In_zrange, !andb_true_iff, !negb_true_iff, !Z.eqb_neq, existsb_exists.
      split; [intros (X1 & (X2 & X3) & r & X4 & X5); apply memb_In in X5; eauto 8|intros (X1 & X2 & X3 & r & X4 & X5)]. split; auto. split; auto. exists r. split; auto. now apply memb_In. }
    assert (Nl : NoDup l) by apply NoDup_filter, zrange_NoDup.
    transitivity (zsum f16 (filter (lives fs7) l)).
    { apply zsum_incl; auto.
      - intros x Hx. destruct (HL x Hx) as (X1 & X2 & X3). apply filter_In. split; [|apply lives_true; exact (proj2 X1)]. apply Il. apply live7_iff in X1.
        destruct X1 as ((X1 & _) & X4 & _). auto.
      - intros x Hx. apply filter_In in Hx. destruct Hx as (X & Y). apply Il in X. apply lives_true in Y. pose proof (T7 x (conj (proj1 X) Y)). lia. }
    rewrite sum7; auto.
    - apply (in_nbr _ _ _ _ _ _ _ _ _ _ _ _ _ _ _ I); auto; [now apply NoDup_filter|].
      intros x Hx. apply filter_In in Hx. destruct Hx as (X & Y). apply Il in X. apply lives_true in Y. destruct X as (X1 & X2 & X3 & X4).
      split; [|auto]. destruct (in_dec Z.eq_dec x P) as [Z|Z]; [exact (proj1 (P_live x Z))|]. rewrite (proj1 (Hrest x Z)) in Y. split; auto.
    - rewrite Il. tauto.
    - intros y z Hy Hz _ _ E X. apply Il in X. destruct X as (X1 & X2 & X3 & r & X4 & X5). pose proof (P_live z Hz) as (Lz & Nz). pose proof (P_live y Hy) as (Ly & _).
      apply Il. split; [exact (proj1 Lz)|]. split; [intros ->; contradiction|]. split; auto. exists r. split; auto.
      pose proof (outside_keeps c r Lc Nc Hc X4) as S. pose proof (col_row c r Lc X4) as Lr. apply row_col in X5; auto.
      assert (Y : In r (keep z)) by (rewrite <- E; apply in_keep; auto). apply in_keep in Y; auto. apply row_col; tauto.
  Qed.
  (** The neighbours of a column of the pivot row *)
  Lemma nbr_in c L : In c P -> live7 c -> NoDup L ->
    (forall x, In x L -> live7 x /\ x <> c /\ (In x P \/ exists r, In r (keep c) /\ In x (rcols v r))) -> zsum f16 L <= final c.
  Proof.
    intros Hc L7 NL HL. destruct (live7_in c Hc L7) as (G & _ & E2). pose proof (proj1 (P_live c Hc)) as Lc.
    pose proof (T7 c L7) as Tc.
    assert (All : zsum f16 (c :: L) <= n2 - k').
    { apply sum7_le; [constructor; auto; intros X; apply HL in X; tauto|]. intros x [<-|Hx]; [auto|apply HL; auto]. }
    rewrite zsum_cons in All. pose proof (in_n2 _ _ _ _ _ _ _ _ _ _ _ _ _ _ _ I) as Hn2.
    assert (InP : zsum f16 (filter (fun x => memb x P) L) + f16 c <= deg').
    { rewrite <- pivot_sum. assert (X : In c (filter (lives fs7) P)) by (apply filter_In; split; auto; apply lives_true; exact (proj2 L7)).
      rewrite (zsum_remove f16 c (filter (lives fs7) P)) by (auto; now apply NoDup_filter).
      assert (zsum f16 (filter (fun x => memb x P) L) <= zsum f16 (filter (fun y => negb (y =? c)) (filter (lives fs7) P))); [|lia].
      apply zsum_incl; [now apply NoDup_filter| |].
      - intros x Hx. apply filter_In in Hx. destruct Hx as (Hx & Mx). apply memb_In in Mx. destruct (HL x Hx) as (Y1 & Y2 & _). apply filter_In. split.
        + apply filter_In. split; auto. apply lives_true. exact (proj2 Y1).
        + apply negb_true_iff, Z.eqb_neq. auto.
      - intros x Hx. apply filter_In in Hx. destruct Hx as (Hx & _). apply filter_In in Hx. destruct Hx as (Hx & Y). apply lives_true in Y.
        pose proof (T7 x (conj (proj1 (proj1 (P_live x Hx))) Y)). lia. }
    assert (OutP : zsum f16 (filter (fun x => negb (memb x P)) L) <= zsum (fun r => g2 r - tag) (keep c)).
    { rewrite (zsum_ext f16 (c1 v)).
      2:{ intros x Hx. apply filter_In in Hx. destruct Hx as (_ & Mx). apply negb_true_iff, memb_false in Mx. exact (proj1 (proj2 (merges_out _ _ _ _ _ _ _ _ _ M x Mx))). }
      rewrite (zsum_ext (fun r => g2 r - tag) (fun r => zsum (c1 v) (others r))).
      2:{ intros r Hr. apply in_keep in Hr; auto. apply (mark_of r c); tauto. }
      apply zsum_union; [now apply NoDup_filter| |].
      - intros x Hx. apply filter_In in Hx. destruct Hx as (Hx & Mx). destruct (HL x Hx) as (Y1 & Y2 & [Y3|(r & Y3 & Y4)]).
        + apply memb_In in Y3. rewrite Y3 in Mx. discriminate.
        + exists r. split; auto. apply filter_In. split; auto. apply in_keep in Y3; auto. apply in_alive; [exact (proj1 (survives_live r (proj2 Y3)))|].
          split; auto. apply live7_iff in Y1. tauto.
      - intros r x Hr Hx. apply in_keep in Hr; auto. apply filter_In in Hx. destruct Hx as (Hx & _). apply in_alive in Hx; [|exact (proj1 (survives_live r (proj2 Hr)))].
        pose proof (T1 x (proj2 Hx)). lia. }
    unfold final. rewrite E2. rewrite (zsum_split f16 (fun x => memb x P) L) in *.
    assert (0 <= zsum f16 (filter (fun x => memb x P) L)).
    { apply zsum_nonneg. intros x Hx. apply filter_In in Hx. destruct (HL x (proj1 Hx)) as (Y & _). pose proof (T7 x Y). lia. }
    pose proof (in_k _ _ _ _ _ _ _ _ _ _ _ _ _ _ _ I). pose proof (T1 p Lp).
    assert (0 <= zsum (c1 v) (filter gone P)).
    { apply zsum_nonneg. intros x Hx. apply filter_In in Hx. pose proof (T1 x (proj1 (P_live x (proj1 Hx)))). lia. }
    lia.
  Qed.
  Lemma final_range c : In c P -> live7 c -> 0 <= final c <= n.
  Proof.
    intros Hc L7. split.
    - pose proof (nbr_in c [] Hc L7 (NoDup_nil _) ltac:(intros x [])) as X. exact X.
    - pose proof (T7 c L7). pose proof (in_k _ _ _ _ _ _ _ _ _ _ _ _ _ _ _ I). pose proof (T1 p Lp).
      assert (0 <= zsum (c1 v) (filter gone P)).
      { apply zsum_nonneg. intros x Hx. apply filter_In in Hx. pose proof (T1 x (proj1 (P_live x (proj1 Hx)))). lia. }
      unfold final. lia.
  Qed.

  Lemma gone_sum : 0 <= zsum (c1 v) (filter gone P).
  Proof. apply zsum_nonneg. intros x Hx. apply filter_In in Hx. pose proof (T1 x (proj1 (P_live x (proj1 Hx)))). lia. Qed.

  (** The principal columns and their places *)
  Lemma forest7 : exists rt', forest n fs7 f16 f26 rt'.
  Proof.
    destruct (merges_forest n P m5 fl5 fs5 (c1 v) f25 fs6 f16 f26 rt M) as (rt' & F).
    - intros x Hx. exact (proj1 (proj1 (P_live x Hx))).
    - eapply forest_ext; [exact (in_forest _ _ _ _ _ _ _ _ _ _ _ _ _ _ _ I)| | | |]; auto.
      + intros i Hi. destruct (in_dec Z.eq_dec i P) as [X|X]; [|now rewrite (proj1 (Hrest i X))].
        pose proof (proj2 (proj1 (P_live i X))). destruct (gone i) eqn:G; [destruct (Hgone i X G)|destruct (Hstay i X G)]; lia.
      + intros i Hi Ei. apply Hrest. intros X. pose proof (proj2 (proj1 (P_live i X))). lia.
      + intros i Hi Ei. destruct (in_dec Z.eq_dec i P) as [X|X]; [|left; now rewrite (proj1 (Hrest i X))].
        destruct (gone i) eqn:G; [destruct (Hgone i X G); lia|destruct (Hstay i X G); lia].
    - exists rt'. assert (Ep : fs6 p = cs v p).
      { destruct (merges_out _ _ _ _ _ _ _ _ _ M p NPp) as (E & _). rewrite E. exact (proj1 (Hrest p NPp)). }
      pose proof (proj2 Lp). eapply forest_ext; [exact F| | | |]; auto; unfold fs7; intros i Hi; unfold fupd; destruct (Z.eqb_spec p i) as [<-|N]; try tauto; lia.
  Qed.
  Lemma principal7 r : 0 <= r < n -> fs7 r = -1 -> f16 r = c1 v r /\
    ((r = p /\ f26 r = k) \/ (In r P /\ gone r = true /\ f26 r = f25 r) \/ (cs v r = -1 /\ f26 r = c2 v r)).
  Proof.
    intros Hr E. unfold fs7, fupd in E. destruct (Z.eqb_spec p r) as [<-|N].
    - destruct (merges_out _ _ _ _ _ _ _ _ _ M p NPp) as (_ & X & Y). split; auto. left. split; auto. rewrite Y, (proj2 (Hrest p NPp)). exact Ek.
    - assert (D5 : fs5 r < 0). { destruct (merges_start _ _ _ _ _ _ _ _ _ M r) as [(X & _)|(X & _)]; lia. }
      destruct (merges_dead _ _ _ _ _ _ _ _ _ r M D5) as (X1 & X2 & X3). split; auto. right. destruct (in_dec Z.eq_dec r P) as [X|X].
      + left. split; auto. split; auto. destruct (gone r) eqn:G; auto. apply live5 in G; auto. lia.
      + right. destruct (Hrest r X) as (Y1 & Y2). split; [lia|congruence].
  Qed.
  Lemma places7 : places n fs7 f16 f26 k' n2.
  Proof.
    destruct (in_places _ _ _ _ _ _ _ _ _ _ _ _ _ _ _ I) as [Q1 Q2]. pose proof (in_k _ _ _ _ _ _ _ _ _ _ _ _ _ _ _ I) as Hk. pose proof gone_sum as Gs. pose proof (T1 p Lp) as Tp.
    assert (Hk2 : k + c1 v p <= n2 - zsum (c1 v) (filter gone P)).
    { assert (X : 0 <= n2 - k'); [|lia]. rewrite <- total7. apply zsum_nonneg. intros x Hx. apply filter_In in Hx. destruct Hx as (X & Y). apply In_zrange in X. apply lives_true in Y.
      pose proof (T7 x (conj X Y)). lia. }
    assert (Old : forall r, 0 <= r < n -> cs v r = -1 -> c2 v r + c1 v r <= k \/ k' <= c2 v r).
    { intros r Hr E. destruct (Q1 r Hr E); lia. }
    constructor.
    - intros r Hr E. destruct (principal7 r Hr E) as (E1 & [(-> & E2)|[(Hp & G & E2)|(E3 & E2)]]); rewrite E1, E2.
      + lia.
      + destruct (Hgone r Hp G). lia.
      + specialize (Q1 r Hr E3). lia.
    - intros r r' Hr Hr' N E E'.
      destruct (principal7 r Hr E) as (E1 & [(-> & E2)|[(Hp & G & E2)|(E3 & E2)]]), (principal7 r' Hr' E') as (E1' & [(-> & E2')|[(Hp' & G' & E2')|(E3' & E2')]]);
        rewrite ?E1, ?E2, ?E1', ?E2'; try (destruct (Hgone r Hp G)); try (destruct (Hgone r' Hp' G')); try (specialize (Old r Hr E3)); try (specialize (Old r' Hr' E3')); try lia.
      + now apply Hgap.
      + now apply Q2.
  Qed.

  (* ----- the view after the round ----- *)

  Variables (v9 : view) (D9 : Z -> list Z) (ms9 md9 tag9 pr : Z).
  Hypothesis Hna : pf + zlen P <= na.
  Hypothesis H_cs : forall c, 0 <= c < n -> cs v9 c = fs7 c.
  Hypothesis H_c1 : forall c, 0 <= c < n -> c1 v9 c = f16 c.
  Hypothesis H_in : forall c, In c P -> live7 c -> cl v9 c = zlen (keep c) + 1 /\ c2 v9 c = final c /\ crows v9 c = keep c ++ [pr].
  Hypothesis H_out : forall c, livec v c -> c <> p -> ~ In c P -> cl v9 c = cl v c /\ c2 v9 c = c2 v c /\ crows v9 c = crows v c.
  Hypothesis H_dead : forall c, 0 <= c < n -> fs7 c < 0 -> c2 v9 c = f26 c.
  Hypothesis H_row : forall r, survives r -> rs v9 r = rs v r /\ rl v9 r = rl v r /\ rcols v9 r = rcols v r /\ r1 v9 r = r1 v r.
  Hypothesis H_pr : 0 < deg' -> In pr (crows v p) /\ rs v9 pr = pf /\ rl v9 pr = zlen (filter (lives fs7) P) /\
    rcols v9 pr = filter (lives fs7) P /\ r1 v9 pr = deg'.
  Hypothesis H_live : forall r, liver v9 r <-> survives r \/ (0 < deg' /\ r = pr).
  Hypothesis H_tag : 1 <= tag9.
  Hypothesis H_mark : forall r, 0 <= r < nr -> r2 v9 r < tag9.
  Hypothesis H_md : md <= md9 /\ zsum (c1 v) P <= md9.
  Hypothesis H_mem : forall i, 0 <= i < pf + zlen P -> 0 <= me v9 i.
  Hypothesis H_lists : lists n (c3 v9) (c4 v9) (he v9) D9 nowhere.
  Hypothesis H_D : forall t x, In x (D9 t) <-> (In x (D t) /\ ~ In x P) \/ (In x P /\ live7 x /\ final x = t).
  Hypothesis H_ms : 0 <= ms9 <= ms /\ forall c, In c P -> live7 c -> ms9 <= final c.

  Lemma live9 c : livec v9 c <-> live7 c.
  Proof. unfold Proofs_Collect.livec, live7. split; intros (X & Y); split; auto; [rewrite H_cs in Y|rewrite H_cs]; auto. Qed.
  Lemma deg_pos c : In c P -> live7 c -> 0 < deg'.
  Proof.
    intros Hc L. pose proof (T7 c L). rewrite <- pivot_sum.
    rewrite (zsum_remove f16 c) by (try (now apply NoDup_filter); apply filter_In; split; auto; apply lives_true; exact (proj2 L)).
    assert (0 <= zsum f16 (filter (fun y => negb (y =? c)) (filter (lives fs7) P))); [|lia].
    apply zsum_nonneg. intros x Hx. apply filter_In in Hx. destruct Hx as (Hx & _). apply filter_In in Hx. destruct Hx as (Hx & Y). apply lives_true in Y.
    pose proof (T7 x (conj (proj1 (proj1 (P_live x Hx))) Y)). lia.
  Qed.
  Lemma alive9 c : 0 <= c < n -> alivec v9 c = lives fs7 c.
  Proof. intros Hc. unfold alivec, alive, lives. now rewrite H_cs. Qed.
  Lemma pr_not r : survives r -> 0 < deg' -> r <> pr.
  Proof. intros S Hd ->. destruct (survives_live pr S) as (_ & X). apply X, H_pr, Hd. Qed.

  (** What the rows and columns are after the round *)
  Lemma cols9 c : live7 c -> (In c P /\ 0 < deg' /\ crows v9 c = keep c ++ [pr]) \/ (~ In c P /\ livec v c /\ c <> p /\ crows v9 c = crows v c).
  Proof.
    intros L. destruct (in_dec Z.eq_dec c P) as [X|X].
    - left. split; auto. split; [eapply deg_pos; eauto|apply H_in; auto].
    - right. apply live7_out in L; auto. destruct L. split; auto. split; auto. split; auto. apply H_out; auto.
  Qed.

  Lemma round_inv : exists rt9, inv none v9 D9 rt9 B (pf + zlen P) k' ms9 md9 tag9.
  Proof.
    destruct forest7 as (rt9 & F9). exists rt9. pose proof (zlen_nonneg P) as ZP.
    pose proof (in_lay _ _ _ _ _ _ _ _ _ _ _ _ _ _ _ I) as Ly. destruct (ly_B _ _ _ _ _ _ Ly) as (HB & HBn).
    assert (Hcl : forall c, live7 c -> cs v9 c = cs v c /\ 1 <= cl v9 c <= cl v c /\ livec v c).
    { intros c L. pose proof (proj1 L) as Hc. rewrite H_cs by auto. destruct (proj1 (live7_iff c) L) as (Lc & Nc & L6).
      assert (E7 : fs7 c = cs v c).
      { unfold fs7. rewrite fupd_other by auto. destruct (merges_live _ _ _ _ _ _ _ _ _ c M L6) as (E & _). rewrite E.
        destruct (in_dec Z.eq_dec c P) as [X|X]; [|exact (proj1 (Hrest c X))]. destruct (live7_in c X L) as (G & _). exact (proj1 (Hstay c X G)). }
      split; auto. split; [|auto]. destruct (in_dec Z.eq_dec c P) as [X|X].
      - destruct (H_in c X L) as (-> & _). pose proof (keep_shorter c X). pose proof (zlen_nonneg (keep c)). lia.
      - destruct (H_out c Lc Nc X) as (-> & _). destruct (in_col _ _ _ _ _ _ _ _ _ _ _ _ _ _ _ I c Lc). lia. }
    assert (Lpr : 0 < deg' -> liver v pr) by (intros Hd; apply (col_row p pr Lp), H_pr, Hd).
    constructor.
    - constructor.
      + lia.
      + intros c L. apply live9 in L. destruct (Hcl c L) as (E & X & Lc). destruct (ly_col _ _ _ _ _ _ Ly c Lc). rewrite E. lia.
      + intros c c' L L' N. apply live9 in L. apply live9 in L'. destruct (Hcl c L) as (E & X & Lc), (Hcl c' L') as (E' & _ & Lc').
        pose proof (ly_cols _ _ _ _ _ _ Ly c c' Lc Lc' N). rewrite E, E'. lia.
      + intros r L. apply H_live in L. destruct L as [S|(Hd & ->)].
        * destruct (H_row r S) as (-> & -> & _). pose proof (ly_row _ _ _ _ _ _ Ly r (proj1 (survives_live r S))). lia.
        * destruct (H_pr Hd) as (_ & -> & -> & _). pose proof (zlen_filter (lives fs7) P). split; [lia|]. split; [|lia].
          destruct (filter (lives fs7) P) as [|c l] eqn:Ef; [|rewrite zlen_cons; pose proof (zlen_nonneg l); lia].
          pose proof pivot_sum as X. rewrite Ef in X. cbn in X. lia.
      + intros r r' L L' N. apply H_live in L. apply H_live in L'. destruct L as [S|(Hd & ->)], L' as [S'|(Hd' & ->)].
        * destruct (H_row r S) as (-> & -> & _), (H_row r' S') as (-> & -> & _).
          exact (ly_rows _ _ _ _ _ _ Ly r r' (proj1 (survives_live r S)) (proj1 (survives_live r' S')) N).
        * destruct (H_row r S) as (-> & -> & _), (H_pr Hd') as (_ & -> & _). pose proof (ly_row _ _ _ _ _ _ Ly r (proj1 (survives_live r S))). lia.
        * destruct (H_row r' S') as (-> & -> & _), (H_pr Hd) as (_ & -> & _). pose proof (ly_row _ _ _ _ _ _ Ly r' (proj1 (survives_live r' S'))). lia.
        * contradiction.
      + exact H_mem.
    - exact (in_B _ _ _ _ _ _ _ _ _ _ _ _ _ _ _ I).
    - intros c L. apply live9 in L. destruct (Hcl c L) as (_ & X & Lc). split; [lia|]. rewrite H_c1 by exact (proj1 L). split; [|now apply T7].
      destruct (in_col _ _ _ _ _ _ _ _ _ _ _ _ _ _ _ I c Lc) as (_ & Nd & _). destruct (cols9 c L) as [(Hc & Hd & ->)|(_ & _ & _ & ->)]; auto.
      apply NoDup_snoc; [now apply NoDup_filter|]. intros Y. apply in_keep in Y; auto. exact (pr_not pr (proj2 Y) Hd eq_refl).
    - intros c r L Hr. apply live9 in L. destruct (cols9 c L) as [(Hc & Hd & E)|(Hc & Lc & Nc & E)]; rewrite E in Hr.
      + apply in_app_iff in Hr. pose proof (proj1 (P_live c Hc)) as Lc. destruct Hr as [Hr|[<-|[]]].
        * apply in_keep in Hr; auto. destruct Hr as (Hr & S). split; [apply H_live; auto|]. destruct (H_row r S) as (_ & _ & -> & _). apply row_col; auto. exact (proj1 (survives_live r S)).
        * split; [apply H_live; auto|]. destruct (H_pr Hd) as (_ & _ & _ & -> & _). apply filter_In. split; auto. apply lives_true. exact (proj2 L).
      + pose proof (outside_keeps c r Lc Nc Hc Hr) as S. split; [apply H_live; auto|]. destruct (H_row r S) as (_ & _ & -> & _). apply row_col; auto. exact (proj1 (survives_live r S)).
    - intros r L. apply H_live in L. destruct L as [S|(Hd & ->)].
      + destruct (H_row r S) as (_ & _ & -> & _). exact (in_row _ _ _ _ _ _ _ _ _ _ _ _ _ _ _ I r (proj1 (survives_live r S))).
      + destruct (H_pr Hd) as (_ & _ & _ & -> & _). split; [now apply NoDup_filter|]. intros c Hc. apply filter_In in Hc. exact (proj1 (proj1 (P_live c (proj1 Hc)))).
    - intros r c L L' Hc. apply H_live in L. apply live9 in L'. destruct L as [S|(Hd & ->)].
      + destruct (H_row r S) as (_ & _ & E & _). rewrite E in Hc. destruct (survives_live r S) as (Lr & _).
        destruct (cols9 c L') as [(Pc & Hd & ->)|(Pc & Lc & Nc & ->)].
        * apply in_app_iff. left. pose proof (proj1 (P_live c Pc)) as Lc. apply in_keep; auto. split; auto. now apply row_col.
        * now apply row_col.
      + destruct (H_pr Hd) as (_ & _ & _ & E & _). rewrite E in Hc. apply filter_In in Hc. destruct (H_in c (proj1 Hc) L') as (_ & _ & ->). apply in_app_iff. right. now left.
    - intros r L. apply H_live in L. assert (Ext : forall l, (forall c, In c l -> 0 <= c < n) -> zsum (c1 v9) (filter (alivec v9) l) = zsum f16 (filter (lives fs7) l)).
      { intros l Hl. rewrite (filter_ext_In (alivec v9) (lives fs7)) by (intros c Hc; apply alive9; auto). apply zsum_ext. intros c Hc. apply filter_In in Hc. apply H_c1, Hl. tauto. }
      destruct L as [S|(Hd & ->)].
      + destruct (H_row r S) as (_ & _ & -> & ->). destruct (survives_live r S) as (Lr & _). rewrite Ext by (intros c Hc; exact (proj2 (in_row _ _ _ _ _ _ _ _ _ _ _ _ _ _ _ I r Lr) c Hc)).
        rewrite row_sum by auto. split; auto. destruct (in_deg _ _ _ _ _ _ _ _ _ _ _ _ _ _ _ I r Lr). lia.
      + destruct (H_pr Hd) as (_ & _ & _ & -> & ->). rewrite Ext by (intros c Hc; apply filter_In in Hc; exact (proj1 (proj1 (P_live c (proj1 Hc))))).
        rewrite filter_filter. rewrite (filter_ext (fun x => lives fs7 x && lives fs7 x) (lives fs7)) by (intros; apply andb_diag). rewrite pivot_sum.
        split; auto. pose proof gone_sum. lia.
    - exact H_tag.
    - exact H_mark.
    - lia.
    - intros c L _. apply live9 in L. destruct (in_dec Z.eq_dec c P) as [X|X].
      + destruct (H_in c X L) as (_ & -> & _). pose proof (final_range c X L). pose proof (proj2 H_ms c X L). lia.
      + apply live7_out in L; auto. destruct L as (Lc & Nc). destruct (H_out c Lc Nc X) as (_ & -> & _).
        pose proof (in_score _ _ _ _ _ _ _ _ _ _ _ _ _ _ _ I c Lc ltac:(congruence)). lia.
    - intros c L L7 _ NL HL. apply live9 in L7. rewrite (zsum_ext (c1 v9) f16) by (intros x Hx; apply H_c1; exact (proj1 (proj1 (HL x Hx)))).
      destruct (in_dec Z.eq_dec c P) as [X|X].
      + destruct (H_in c X L7) as (_ & -> & E). apply nbr_in; auto. intros x Hx. destruct (HL x Hx) as (Y1 & Y2 & r & Y3 & Y4). apply live9 in Y1. split; auto. split; auto.
        rewrite E in Y3. apply in_app_iff in Y3. destruct Y3 as [Y3|[<-|[]]].
        * right. exists r. split; auto. apply in_keep in Y3; [|exact (proj1 (P_live c X))]. destruct (H_row r (proj2 Y3)) as (_ & _ & Z & _). now rewrite <- Z.
        * left. pose proof (deg_pos c X L7) as Hd. destruct (H_pr Hd) as (_ & _ & _ & Z & _). rewrite Z in Y4. apply filter_In in Y4. tauto.
      + apply live7_out in L7; auto. destruct L7 as (Lc & Nc). destruct (H_out c Lc Nc X) as (_ & -> & E). apply nbr_out; auto.
        intros x Hx. destruct (HL x Hx) as (Y1 & Y2 & r & Y3 & Y4). apply live9 in Y1. split; auto. split; auto. exists r. rewrite E in Y3. split; auto.
        destruct (H_row r (outside_keeps c r Lc Nc X Y3)) as (_ & _ & Z & _). now rewrite <- Z.
    - exact H_lists.
    - intros t x. rewrite H_D, live9. rewrite (in_D _ _ _ _ _ _ _ _ _ _ _ _ _ _ _ I). split.
      + intros [((X1 & X2 & X3) & X4)|(X1 & X2 & X3)].
        * split; [apply live7_out; auto|]. split; [intros []|]. destruct (H_out x X1 ltac:(auto) X4) as (_ & -> & _). exact X3.
        * split; auto. split; [intros []|]. destruct (H_in x X1 X2) as (_ & -> & _). exact X3.
      + intros (X1 & _ & X3). destruct (in_dec Z.eq_dec x P) as [X|X].
        * right. destruct (H_in x X X1) as (_ & E & _). rewrite <- E. auto.
        * left. apply live7_out in X1; auto. destruct X1 as (X1 & X2). destruct (H_out x X1 X2 X) as (_ & E & _). rewrite <- E. auto.
    - rewrite <- total7. unfold cols_upto. rewrite (filter_ext_In (alivec v9) (lives fs7)) by (intros c Hc; apply In_zrange in Hc; now apply alive9).
      apply zsum_ext. intros c Hc. apply filter_In in Hc. destruct Hc as (Hc & _). apply In_zrange in Hc. now apply H_c1.
    - pose proof (in_k _ _ _ _ _ _ _ _ _ _ _ _ _ _ _ I). pose proof gone_sum. pose proof (T1 p Lp). lia.
    - exact (in_n2 _ _ _ _ _ _ _ _ _ _ _ _ _ _ _ I).
    - eapply forest_ext; [exact F9| | | |]; auto.
      + intros i Hi. rewrite H_cs by auto. tauto.
      + intros i Hi E. apply H_dead; auto. lia.
    - destruct places7 as [Q1 Q2]. constructor.
      + intros r Hr E. rewrite H_cs in E by auto. rewrite H_c1, H_dead by (auto; lia). now apply Q1.
      + intros r r' Hr Hr' N E E'. rewrite H_cs in E, E' by auto. rewrite !H_c1, !H_dead by (auto; lia). now apply Q2.
  Qed.
End Round.
