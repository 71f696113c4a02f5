(** Proofs about ordering the absorbed columns *)
From Coq Require Import List Arith ZArith Lia Bool Permutation.
From Verif Require Import Outcome Lib ModelColamd Spec_Colamd Proofs_Zlist.
Import ListNotations.
Local Open Scope Z_scope.

Definition dcol : ccol := CCol 0 0 0 0 0 0.

Lemma column_at_znth cols i c : column_at cols i c <-> 0 <= i < zlen cols /\ c = znth dcol cols i.
Proof.
  unfold column_at. split.
  - intros (Hi & H). destruct (znth_nth_error dcol cols i c Hi H). auto.
  - intros (Hi & ->). split; [lia|]. now apply nth_error_znth.
Qed.

Lemma absorbed_unique cols i r r' : absorbed_by cols i r -> absorbed_by cols i r' -> r = r'.
Proof.
  intros H. revert r'. induction H as [i c Hc Hp|i c r Hc Hp H IH]; intros r' H'.
  - destruct H' as [i c' Hc' Hp'|i c' r' Hc' Hp' H']; auto.
    destruct Hc as (_ & Hc), Hc' as (_ & Hc'). congruence.
  - apply IH. destruct H' as [i c' Hc' Hp'|i c' r' Hc' Hp' H'].
    + destruct Hc as (_ & Hc), Hc' as (_ & Hc'). congruence.
    + destruct Hc as (_ & Hc), Hc' as (_ & Hc'). congruence.
Qed.
Lemma absorbed_root cols i r : absorbed_by cols i r -> absorbed_by cols r r /\ 0 <= r < zlen cols /\ cl_start (znth dcol cols r) = -1.
Proof.
  induction 1 as [i c Hc Hp|i c r Hc Hp H IH]; auto. split; [econstructor; eauto|].
  apply column_at_znth in Hc. destruct Hc as (Hi & ->). auto.
Qed.

(** The columns on the way from [i] to its root *)
Inductive climb (cols : list ccol) : list Z -> Z -> Z -> Prop :=
| cb_here i c : column_at cols i c -> principal c -> climb cols [i] i i
| cb_up i c r l : column_at cols i c -> ~ principal c -> climb cols l (cl_shared1 c) r -> climb cols (i :: l) i r.
Lemma absorbed_climb cols i r : absorbed_by cols i r -> exists l, climb cols l i r.
Proof.
  induction 1 as [i c Hc Hp|i c r Hc Hp H (l & IH)]; eexists; [eapply cb_here|eapply cb_up]; eauto.
Qed.
Lemma climb_unique cols l i r l' r' : climb cols l i r -> climb cols l' i r' -> l = l'.
Proof.
  intros H. revert l' r'. induction H as [i c Hc Hp|i c r l Hc Hp H IH]; intros l' r' H'.
  - destruct H' as [i c' Hc' Hp'|i c' r' l' Hc' Hp' H']; auto.
    destruct Hc as (_ & Hc), Hc' as (_ & Hc'). congruence.
  - destruct H' as [i c' Hc' Hp'|i c' r' l' Hc' Hp' H'].
    + destruct Hc as (_ & Hc), Hc' as (_ & Hc'). congruence.
    + f_equal. eapply IH. destruct Hc as (_ & Hc), Hc' as (_ & Hc'). replace (cl_shared1 c) with (cl_shared1 c') by congruence. eauto.
Qed.
Lemma climb_in cols l i r x : climb cols l i r -> In x l -> exists l', climb cols l' x r /\ (length l' <= length l)%nat.
Proof.
  induction 1 as [i c Hc Hp|i c r l Hc Hp H IH].
  - intros [<-|[]]. eexists. split; [eapply cb_here; eauto|cbn; lia].
  - intros [<-|Hx].
    + eexists. split; [eapply cb_up; eauto|]. cbn. lia.
    + destruct (IH Hx) as (l' & H' & L). exists l'. split; auto. cbn. lia.
Qed.
Lemma climb_NoDup cols l i r : climb cols l i r -> NoDup l.
Proof.
  induction 1 as [i c Hc Hp|i c r l Hc Hp H IH]; [repeat constructor; auto|].
  constructor; auto. intros Hx. destruct (climb_in _ _ _ _ _ H Hx) as (l' & H' & L).
  assert (E : climb cols (i :: l) i r) by (econstructor; eauto).
  rewrite (climb_unique _ _ _ _ _ _ H' E) in L. cbn in L. lia.
Qed.
Lemma climb_bound cols l i r : climb cols l i r -> (length l <= length cols)%nat.
Proof.
  intros H. pose proof (climb_NoDup _ _ _ _ H) as N.
  replace (length cols) with (Z.to_nat (zlen cols)) by (unfold zlen; lia). apply zrange_pigeon; auto.
  intros x Hx. destruct (climb_in _ _ _ _ _ H Hx) as (l' & H' & _).
  destruct H' as [i' c Hc Hp|i' c r' l' Hc Hp H']; apply column_at_znth in Hc; tauto.
Qed.

Lemma principal_of_climb cols : forall l i r, climb cols l i r -> forall c, column_at cols i c -> ~ principal c ->
  forall fuel, (length l <= fuel)%nat -> principal_of fuel cols i = Done r.
Proof.
  induction 1 as [i c Hc Hp|i c r l Hc Hp H IH]; intros c' Hc' Hp' fuel F.
  - destruct Hc as (_ & Hc), Hc' as (_ & Hc'). congruence.
  - destruct fuel as [|fuel]; [cbn in F; lia|]. cbn [principal_of].
    assert (c' = c) as -> by (destruct Hc as (_ & Hc), Hc' as (_ & Hc'); congruence).
    apply column_at_znth in Hc. destruct Hc as (Hi & Ec). rewrite (zget_ok dcol) by exact Hi. cbn [obind]. rewrite <- Ec.
    assert (Hy : exists y, column_at cols (cl_shared1 c) y) by (destruct H; eauto). destruct Hy as (y & Hy).
    pose proof Hy as Hy'. apply column_at_znth in Hy. destruct Hy as (Hiy & Ey). rewrite (zget_ok dcol) by exact Hiy. cbn [obind].
    rewrite <- Ey. unfold dead_principal. destruct (Z.eqb_spec (cl_start y) (-1)) as [E|E].
    + f_equal. destruct H as [i' c'' Hc'' Hp''|i' c'' r' l' Hc'' Hp'' H']; auto.
      destruct Hy' as (_ & Hy'), Hc'' as (_ & Hc''). unfold principal in Hp''. congruence.
    + eapply IH; eauto. cbn in F. lia.
Qed.

(** Finite choice *)
Lemma choose (R : Z -> Z -> Prop) n : (forall i, 0 <= i < n -> exists r, R i r) -> exists f, forall i, 0 <= i < n -> R i (f i).
Proof.
  intros H. destruct (Z_le_gt_dec n 0); [exists (fun x => x); intros; lia|].
  assert (G : forall k, (Z.of_nat k <= n) -> exists f, forall i, 0 <= i < Z.of_nat k -> R i (f i)).
  { induction k as [|k IH]; intros L; [exists (fun x => x); intros; lia|].
    destruct IH as (f & Hf); [lia|]. destruct (H (Z.of_nat k)) as (r & Hr); [lia|].
    exists (fun i => if i =? Z.of_nat k then r else f i). intros i Hi.
    destruct (Z.eqb_spec i (Z.of_nat k)) as [->|N]; auto. apply Hf. lia. }
  destruct (G (Z.to_nat n)) as (f & Hf); [lia|]. exists f. intros i Hi. apply Hf. lia.
Qed.

Section Children.
  Variables (n : Z) (cols0 : list ccol).
  Hypothesis AF : absorption_forest n cols0.
  Variable rt : Z -> Z.
  Hypothesis Rt : forall i, 0 <= i < n -> absorbed_by cols0 i (rt i) /\ 0 <= rt i < n.
  Hypothesis n0 : 0 <= n.

  Definition st0 (i : Z) := cl_start (znth dcol cols0 i).
  Definition pr (i : Z) : bool := st0 i =? -1.
  Definition place (r : Z) := cl_shared2 (znth dcol cols0 r).
  (** Absorbed columns of the group of [r] among the first [i] *)
  Definition before (i r : Z) : Z := zlen (filter (fun j => negb (pr j) && (rt j =? r)) (zrange 0 i)).
  Definition members (r : Z) : list Z := filter (fun j => rt j =? r) (zrange 0 n).

  Lemma zlen0 : n <= zlen cols0. Proof. exact (af_length _ _ AF). Qed.
  Lemma rt_root i : 0 <= i < n -> pr (rt i) = true.
  Proof. intros H. destruct (Rt i H) as (R & _). apply absorbed_root in R. unfold pr, st0. apply Z.eqb_eq. tauto. Qed.
  Lemma rt_pr i : 0 <= i < n -> pr i = true -> rt i = i.
  Proof.
    intros H P. destruct (Rt i H) as (R & _). eapply absorbed_unique; [exact R|].
    pose proof zlen0. econstructor; [apply column_at_znth; split; [lia|reflexivity]|]. now apply Z.eqb_eq.
  Qed.
  Lemma members_group r : group_of n cols0 r (members r).
  Proof.
    split; [apply NoDup_filter, zrange_NoDup|]. intros i. unfold members. rewrite filter_In, In_zrange, Z.eqb_eq.
    split.
    - intros (H & <-). split; auto. now apply Rt.
    - intros (H & R). split; auto. eapply absorbed_unique; [apply Rt; exact H|exact R].
  Qed.
  Lemma place_root r : 0 <= r < n -> pr r = true -> column_at cols0 r (znth dcol cols0 r) /\ principal (znth dcol cols0 r).
  Proof.
    intros H P. pose proof zlen0. split; [apply column_at_znth; split; [lia|reflexivity]|]. now apply Z.eqb_eq.
  Qed.
  Lemma place_inside r : 0 <= r < n -> pr r = true -> 0 <= place r /\ place r + zlen (members r) <= n.
  Proof.
    intros H P. destruct (place_root r H P) as (Hc & Hp). exact (af_places _ _ AF r _ _ H Hc Hp (members_group r)).
  Qed.
  Lemma before_step i r : 0 <= i -> before (i + 1) r = before i r + (if negb (pr i) && (rt i =? r) then 1 else 0).
  Proof.
    intros H. unfold before. rewrite zrange_snoc by lia. rewrite filter_app. unfold zlen. rewrite app_length. cbn [filter].
    destruct (negb (pr i) && (rt i =? r)); cbn [length]; lia.
  Qed.
  Lemma before_nonneg i r : 0 <= before i r. Proof. apply zlen_nonneg. Qed.
  Lemma before_mono i j r : 0 <= i <= j -> before i r <= before j r.
  Proof.
    intros H. unfold before. rewrite (zrange_app 0 i j) by lia. rewrite filter_app. unfold zlen. rewrite app_length. lia.
  Qed.
  (** A group has its root besides the absorbed columns *)
  Lemma before_all r : 0 <= r < n -> pr r = true -> before n r + 1 <= zlen (members r).
  Proof.
    intros H P. unfold before, members, zlen.
    assert (N : NoDup (r :: filter (fun j => negb (pr j) && (rt j =? r)) (zrange 0 n))).
    { constructor; [|apply NoDup_filter, zrange_NoDup]. rewrite filter_In, P. cbn. intros (_ & Q). discriminate. }
    apply (NoDup_incl_length (l' := filter (fun j => rt j =? r) (zrange 0 n))) in N; [cbn [length] in N; lia|].
    intros x [<-|Hx].
    - apply filter_In. rewrite In_zrange, Z.eqb_eq. split; auto. now apply rt_pr.
    - apply filter_In in Hx. apply filter_In. destruct Hx as (Hx & B). apply andb_true_iff in B. tauto.
  Qed.
  Lemma before_lt j r : 0 <= j < n -> pr j = false -> rt j = r -> before j r + 1 <= before n r.
  Proof.
    intros H P R. pose proof (before_step j r ltac:(lia)) as S. rewrite P, R, Z.eqb_refl in S. cbn in S.
    pose proof (before_mono (j + 1) n r ltac:(lia)). lia.
  Qed.

  (** The columns when the first [i] have been gone through *)
  Record seen (i : Z) (cols : list ccol) : Prop := {
    sn_len : zlen cols = zlen cols0;
    sn_start : forall j, cl_start (znth dcol cols j) = st0 j;
    sn_root : forall r, 0 <= r < n -> pr r = true -> cl_shared2 (znth dcol cols r) = place r + before i r;
    sn_done : forall j, 0 <= j < i -> pr j = false ->
      cl_shared1 (znth dcol cols j) = rt j /\ cl_shared2 (znth dcol cols j) = place (rt j) + before j (rt j);
    sn_later : forall j, i <= j -> pr j = false -> cl_shared1 (znth dcol cols j) = cl_shared1 (znth dcol cols0 j) /\
      cl_shared2 (znth dcol cols j) = cl_shared2 (znth dcol cols0 j)
  }.

  Lemma seen_absorbed i cols j : 0 <= i <= n -> seen i cols -> forall r, absorbed_by cols0 j r -> absorbed_by cols j r.
  Proof.
    intros Hi S r H. induction H as [j c Hc Hp|j c r Hc Hp H IH].
    - apply column_at_znth in Hc. destruct Hc as (Hj & ->). apply (ab_here _ _ (znth dcol cols j)).
      + apply column_at_znth. rewrite (sn_len _ _ S). auto.
      + unfold principal. rewrite (sn_start _ _ S). exact Hp.
    - pose proof Hc as Hc0. apply column_at_znth in Hc. destruct Hc as (Hj & ->).
      assert (P : pr j = false) by (apply Z.eqb_neq; exact Hp).
      apply (ab_up _ _ (znth dcol cols j)).
      + apply column_at_znth. rewrite (sn_len _ _ S). auto.
      + unfold principal. rewrite (sn_start _ _ S). exact Hp.
      + destruct (Z_lt_ge_dec j i) as [L|L].
        * destruct (sn_done _ _ S j) as (E & _); [lia|auto|]. rewrite E.
          assert (R : rt j = r) by (eapply absorbed_unique; [apply Rt; lia|eapply ab_up; eauto]). rewrite R.
          destruct (absorbed_root _ _ _ H) as (_ & Hr & Ps). apply (ab_here _ _ (znth dcol cols r)).
          -- apply column_at_znth. rewrite (sn_len _ _ S). auto.
          -- unfold principal. rewrite (sn_start _ _ S). exact Ps.
        * destruct (sn_later _ _ S j) as (E & _); [lia|auto|]. now rewrite E.
  Qed.

  Lemma order_child_step i cols : 0 <= i < n -> seen i cols -> exists cols', order_child cols i = Done cols' /\ seen (i + 1) cols'.
  Proof.
    intros Hi S. pose proof zlen0 as L0. pose proof (sn_len _ _ S) as SL. unfold order_child.
    rewrite (zget_ok dcol) by lia. cbn [obind]. rewrite (sn_start _ _ S). unfold dead_principal, empty_link.
    change (st0 i =? -1) with (pr i). destruct (pr i) eqn:P; cbn [negb andb].
    - exists cols. split; auto. constructor.
      + exact SL.
      + apply S.
      + intros r Hr Pr. rewrite before_step by lia. rewrite P. cbn. rewrite (sn_root _ _ S) by auto. lia.
      + intros j Hj Pj. destruct (Z.eq_dec j i) as [->|]; [congruence|]. apply S; auto. lia.
      + intros j Hj. apply S. lia.
    - destruct (sn_later _ _ S i) as (E1 & E2); [lia|auto|].
      rewrite E2. rewrite (af_unordered _ _ AF i (znth dcol cols0 i)); auto.
      2:{ apply column_at_znth. split; [lia|reflexivity]. }
      2:{ unfold principal. apply Z.eqb_neq. exact P. }
      change (-1 =? -1) with true. cbv iota. destruct (Rt i Hi) as (R & Hr). set (r := rt i) in *.
      pose proof (seen_absorbed i cols i ltac:(lia) S r R) as Rc.
      destruct (absorbed_climb _ _ _ Rc) as (l & C).
      rewrite (principal_of_climb _ _ _ _ C (znth dcol cols i)).
      2:{ apply column_at_znth. split; [lia|reflexivity]. }
      2:{ unfold principal. rewrite (sn_start _ _ S). apply Z.eqb_neq. exact P. }
      2:{ pose proof (climb_bound _ _ _ _ C). lia. }
      cbn [obind]. rewrite (zget_ok dcol) by lia. cbn [obind].
      assert (Pr : pr r = true) by (apply rt_root; exact Hi).
      assert (Nir : i <> r) by (intros X; rewrite X in P; congruence).
      pose proof (sn_root _ _ S r Hr Pr) as Sr. pose proof (place_inside r Hr Pr) as (Pl & _).
      pose proof (before_nonneg i r) as Bn.
      cbn [order_path].
      rewrite (zupdate_ok dcol) by lia. cbn [obind].
      rewrite (zupdate_ok dcol) by (rewrite zlen_put; lia). cbn [obind].
      set (c2 := zput (zput cols i _) i _).
      assert (L2 : zlen c2 = zlen cols) by (unfold c2; now rewrite !zlen_put).
      assert (Gi : znth dcol c2 i = cl_set_shared1 r (cl_set_shared2 (cl_shared2 (znth dcol cols r)) (znth dcol cols i))).
      { unfold c2. rewrite znth_put_same by (rewrite zlen_put; lia). now rewrite znth_put_same by lia. }
      assert (Go : forall j, j <> i -> znth dcol c2 j = znth dcol cols j).
      { intros j Hj. unfold c2. rewrite znth_put_other by (rewrite ?zlen_put; lia). rewrite znth_put_other by lia. reflexivity. }
      clearbody c2.
      rewrite (zget_ok dcol) by lia. cbn [obind]. rewrite Gi. cbn [cl_shared1 cl_set_shared1].
      rewrite (zget_ok dcol) by lia. cbn [obind]. rewrite Go by auto.
      unfold empty_link. destruct (Z.eqb_spec (cl_shared2 (znth dcol cols r)) (-1)) as [E|_]; [lia|]. cbn [negb obind].
      rewrite (zupdate_ok dcol) by lia. eexists. split; [reflexivity|].
      assert (Gr : forall j, znth dcol (zput c2 r (cl_set_shared2 (cl_shared2 (znth dcol cols r) + 1) (znth dcol c2 r))) j =
        if j =? r then cl_set_shared2 (cl_shared2 (znth dcol cols r) + 1) (znth dcol cols r)
        else if j =? i then znth dcol c2 i else znth dcol cols j).
      { intros j. rewrite znth_put by lia. rewrite (Z.eqb_sym r j). destruct (Z.eqb_spec j r) as [->|]; [now rewrite Go by auto|].
        destruct (Z.eqb_spec j i) as [->|]; auto. }
      constructor.
      + rewrite zlen_put. lia.
      + intros j. rewrite Gr. destruct (Z.eqb_spec j r) as [->|]; [exact (sn_start _ _ S r)|].
        destruct (Z.eqb_spec j i) as [->|]; [rewrite Gi; exact (sn_start _ _ S i)|]. apply S.
      + intros q Hq Pq. rewrite before_step by lia. rewrite P. cbn [negb andb]. fold r. rewrite Gr.
        destruct (Z.eqb_spec q r) as [->|Nq].
        * rewrite Z.eqb_refl. cbn [cl_shared2 cl_set_shared2]. lia.
        * destruct (Z.eqb_spec r q); [congruence|]. destruct (Z.eqb_spec q i) as [->|]; [congruence|].
          rewrite (sn_root _ _ S) by auto. lia.
      + intros j Hj Pj. rewrite Gr. destruct (Z.eqb_spec j r) as [->|]; [congruence|].
        destruct (Z.eqb_spec j i) as [->|].
        * rewrite Gi. cbn [cl_shared1 cl_shared2 cl_set_shared1 cl_set_shared2]. fold r. auto.
        * apply S; auto. lia.
      + intros j Hj Pj. rewrite Gr. destruct (Z.eqb_spec j r) as [->|]; [congruence|].
        destruct (Z.eqb_spec j i); [lia|]. apply S; auto. lia.
  Qed.

  Lemma seen_start : seen 0 cols0.
  Proof.
    constructor; auto.
    - intros r Hr Pr. unfold before. cbn. fold (place r). lia.
    - intros j Hj. lia.
  Qed.

  (** Where each column goes *)
  Definition target (j : Z) : Z := place (rt j) + (if pr j then before n j else before j (rt j)).
  Lemma target_inside j : 0 <= j < n -> place (rt j) <= target j < place (rt j) + zlen (members (rt j)).
  Proof.
    intros H. pose proof (rt_root j H) as P. destruct (Rt j H) as (_ & Hr).
    pose proof (before_all _ Hr P). unfold target. destruct (pr j) eqn:Pj.
    - rewrite (rt_pr j H Pj) in *. pose proof (before_nonneg n j). lia.
    - pose proof (before_lt j (rt j) H Pj eq_refl). pose proof (before_nonneg j (rt j)). lia.
  Qed.
  Lemma target_injective j j' : 0 <= j < n -> 0 <= j' < n -> target j = target j' -> j = j'.
  Proof.
    intros H H' E. pose proof (target_inside j H) as T. pose proof (target_inside j' H') as T'.
    pose proof (rt_root j H) as P. pose proof (rt_root j' H') as P'.
    destruct (Rt j H) as (_ & Hr), (Rt j' H') as (_ & Hr').
    destruct (Z.eq_dec (rt j) (rt j')) as [Er|Nr].
    - unfold target in E. rewrite Er in E. destruct (pr j) eqn:Q, (pr j') eqn:Q'.
      + rewrite (rt_pr j H Q), (rt_pr j' H' Q') in Er. exact Er.
      + rewrite (rt_pr j H Q) in Er. pose proof (before_lt j' (rt j') H' Q' eq_refl). rewrite <- Er in *. lia.
      + rewrite (rt_pr j' H' Q') in Er. pose proof (before_lt j (rt j) H Q eq_refl). rewrite Er in *. rewrite (rt_pr j' H' Q') in E. lia.
      + destruct (Z.lt_trichotomy j j') as [L|[L|L]]; auto.
        * pose proof (before_step j (rt j) ltac:(lia)) as S. rewrite Q, Z.eqb_refl in S. cbn in S.
          pose proof (before_mono (j + 1) j' (rt j) ltac:(lia)). rewrite Er in *. lia.
        * pose proof (before_step j' (rt j') ltac:(lia)) as S. rewrite Q', Z.eqb_refl in S. cbn in S.
          pose proof (before_mono (j' + 1) j (rt j') ltac:(lia)). rewrite Er in *. lia.
    - destruct (place_root _ Hr P) as (C1 & C2), (place_root _ Hr' P') as (C1' & C2').
      pose proof (af_disjoint _ _ AF _ _ _ _ _ _ Hr Hr' Nr C1 C2 (members_group _) C1' C2' (members_group _)) as D.
      change (cl_shared2 (znth dcol cols0 (rt j))) with (place (rt j)) in D.
      change (cl_shared2 (znth dcol cols0 (rt j'))) with (place (rt j')) in D. unfold zlen in *. lia.
  Qed.

  Lemma emit_all cols p : seen n cols -> n <= zlen p ->
    exists p', ofold (emit cols) (zrange 0 n) p = Done p' /\ zlen p' = zlen p /\ forall j, 0 <= j < n -> znth 0 p' (target j) = j.
  Proof.
    intros S Lp. pose proof zlen0 as L0. pose proof (sn_len _ _ S) as SL.
    assert (T : forall j, 0 <= j < n -> cl_shared2 (znth dcol cols j) = target j).
    { intros j Hj. unfold target. destruct (pr j) eqn:P.
      - rewrite (rt_pr j Hj P). now apply S.
      - destruct (sn_done _ _ S j); auto. }
    assert (B : forall j, 0 <= j < n -> 0 <= target j < n).
    { intros j Hj. pose proof (target_inside j Hj). destruct (Rt j Hj) as (_ & Hr).
      pose proof (place_inside (rt j) Hr (rt_root j Hj)). lia. }
    destruct (zloop (fun i q => zlen q = zlen p /\ forall j, 0 <= j < i -> znth 0 q (target j) = j) (emit cols) 0 n n0) with (s := p)
      as (p' & E & L & H).
    - intros i q Hi (Lq & Hq). unfold emit. rewrite (zget_ok dcol) by lia. cbn [obind]. rewrite T by lia.
      pose proof (B i Hi). rewrite zset_ok by lia. eexists. split; [reflexivity|]. split; [now rewrite zlen_put|].
      intros j Hj. rewrite znth_put by lia. destruct (Z.eqb_spec (target i) (target j)) as [Et|Nt].
      + apply target_injective in Et; [lia| |]; lia.
      + apply Hq. assert (j <> i) by (intros ->; congruence). lia.
    - split; auto. intros j Hj. lia.
    - exists p'. auto.
  Qed.

  Lemma target_bound j : 0 <= j < n -> 0 <= target j < n.
  Proof.
    intros Hj. pose proof (target_inside j Hj). destruct (Rt j Hj) as (_ & Hr).
    pose proof (place_inside (rt j) Hr (rt_root j Hj)). lia.
  Qed.
End Children.

Theorem order_children_ok n cols p : absorption_forest n cols -> 0 <= n <= zlen p ->
  exists cols' p', order_children n cols p = Done (cols', p') /\ zlen p' = zlen p /\
    column_order n (firstn (Z.to_nat n) p').
Proof.
  intros AF (Hn & Hp). destruct (choose (fun i r => absorbed_by cols i r /\ 0 <= r < n) n) as (rt & Rt).
  { intros i Hi. exact (af_roots _ _ AF i Hi). }
  unfold order_children.
  destruct (zloop (seen n cols rt) order_child 0 n Hn) with (s := cols) as (cols' & E & S).
  { intros i s Hi. now apply order_child_step. }
  { now apply seen_start. }
  rewrite E. cbn [obind]. destruct (emit_all n cols AF rt Rt Hn cols' p S Hp) as (p' & E' & L & T).
  rewrite E'. cbn [obind]. exists cols', p'. split; [reflexivity|]. split; [exact L|].
  unfold column_order. apply Permutation_sym. apply NoDup_Permutation_bis.
  - apply zrange_NoDup.
  - rewrite firstn_length, zrange_length. unfold zlen in *. lia.
  - intros j Hj. apply In_zrange in Hj. pose proof (target_bound n cols AF rt Rt j Hj) as B.
    rewrite <- (T j Hj). unfold znth. destruct (Z.ltb_spec (target n cols rt j) 0); [lia|].
    rewrite <- (firstn_skipn (Z.to_nat n) p') at 1.
    rewrite app_nth1 by (rewrite firstn_length; unfold zlen in *; lia).
    apply nth_In. rewrite firstn_length. unfold zlen in *. lia.
Qed.
