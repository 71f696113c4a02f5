(** The numeric half of the QR factorization, given a suitable symbolic one *)
From Coq Require Import List Arith Lia Reals Lra Bool Sorted Permutation.
From Verif Require Import Num NumR Outcome Lib ModelSparse ModelForest ModelCholesky ModelQr
  Spec_Sparse Spec_Linear Spec_Qr Proofs_Sparse Proofs_Linear Proofs_Triangular Proofs_Householder Proofs_Columns.
Import ListNotations.
Local Open Scope R_scope.

Lemma sorted_lt_unique (l : list nat) : forall l', StronglySorted lt l -> StronglySorted lt l' ->
  (forall x, In x l <-> In x l') -> l = l'.
Proof.
  induction l as [|a l IH]; intros [|b l'] S1 S2 H; [reflexivity| | |].
  - destruct (proj2 (H b)). now left.
  - destruct (proj1 (H a)). now left.
  - inversion S1 as [|? ? S1' F1]; inversion S2 as [|? ? S2' F2]; subst.
    rewrite Forall_forall in F1, F2.
    assert (a = b).
    { destruct (proj1 (H a) (or_introl eq_refl)) as [->|Ha]; [reflexivity|].
      destruct (proj2 (H b) (or_introl eq_refl)) as [->|Hb]; [reflexivity|].
      specialize (F1 _ Hb). specialize (F2 _ Ha). lia. }
    subst b. f_equal. apply IH; auto. intros x. split; intros Hx.
    + destruct (proj1 (H x) (or_intror Hx)) as [->|]; [|assumption]. specialize (F1 _ Hx). lia.
    + destruct (proj2 (H x) (or_intror Hx)) as [->|]; [|assumption]. specialize (F2 _ Hx). lia.
Qed.

Lemma sorted_filter (f : nat -> bool) l : StronglySorted lt l -> StronglySorted lt (filter f l).
Proof.
  induction 1 as [|a l S IH F]; cbn; [constructor|].
  destruct (f a); [|exact IH]. constructor; [exact IH|].
  rewrite Forall_forall in *. intros x Hx. apply filter_In in Hx. now apply F.
Qed.
Lemma sorted_seq a n : StronglySorted lt (seq a n).
Proof.
  revert a. induction n as [|n IH]; intros a; cbn; constructor; [apply IH|].
  apply Forall_forall. intros x Hx. apply in_seq in Hx. lia.
Qed.
Lemma sorted_lt_NoDup l : StronglySorted lt l -> NoDup l.
Proof.
  induction 1 as [|a l S IH F]; constructor; [|exact IH].
  intros H. rewrite Forall_forall in F. specialize (F _ H). lia.
Qed.

Lemma NoDup_app_snoc {A} (l : list A) x : NoDup l -> ~ In x l -> NoDup (l ++ [x]).
Proof.
  intros N H. apply (Permutation_NoDup (l := x :: l)); [apply Permutation_cons_append|]. now constructor.
Qed.

Section Reflectors.
  Variable m : nat.
  Variable Hs : list (list nat).

  (** Reflector [k], and several in a row *)
  Definition refl (hv : list (list R)) (betas : list R) (k : nat) (x : nat -> R) : nat -> R :=
    reflect m (nth k betas 0) (spread (nth k Hs []) (nth k hv [])) x.
  Definition refls (hv : list (list R)) (betas : list R) (ks : list nat) (x : nat -> R) : nat -> R :=
    fold_left (fun x k => refl hv betas k x) ks x.

  Variables (hv : list (list R)) (betas : list R).

  Lemma refls_app ks ks' x : refls hv betas (ks ++ ks') x = refls hv betas ks' (refls hv betas ks x).
  Proof. apply fold_left_app. Qed.
  Lemma refls_nil x : refls hv betas [] x = x.
  Proof. reflexivity. Qed.
  Lemma refls_cons k ks x : refls hv betas (k :: ks) x = refls hv betas ks (refl hv betas k x).
  Proof. reflexivity. Qed.

  Lemma refl_ext k x x' :
    (forall i, (i < m)%nat -> x i = x' i) -> forall i, (i < m)%nat -> refl hv betas k x i = refl hv betas k x' i.
  Proof. intros H i Hi. unfold refl. now apply reflect_ext. Qed.

  Lemma refls_ext ks : forall x x',
    (forall i, (i < m)%nat -> x i = x' i) -> forall i, (i < m)%nat -> refls hv betas ks x i = refls hv betas ks x' i.
  Proof.
    induction ks as [|k ks IH]; intros x x' H i Hi; [now apply H|].
    rewrite !refls_cons. apply IH; [|exact Hi]. intros i' Hi'. now apply refl_ext.
  Qed.

  Lemma refls_values hv' betas' ks x :
    (forall k, In k ks -> nth k hv [] = nth k hv' [] /\ nth k betas 0 = nth k betas' 0) ->
    refls hv betas ks x = refls hv' betas' ks x.
  Proof.
    revert x. induction ks as [|k ks IH]; intros x H; [reflexivity|].
    cbn. unfold refl at 2 4. destruct (H k (or_introl eq_refl)) as [-> ->]. apply IH.
    intros k' Hk'. apply H. now right.
  Qed.

  (** A reflector leaves alone what it has no row in common with. *)
  Lemma refl_apart k x :
    (forall i, (i < m)%nat -> In i (nth k Hs []) -> x i = 0) -> forall i, refl hv betas k x i = x i.
  Proof.
    intros H i. apply reflect_trivial. apply inner_zero_l. intros r Hr.
    destruct (in_dec Nat.eq_dec r (nth k Hs [])) as [Hin|Hout].
    - right. now apply H.
    - left. now apply spread_out.
  Qed.

  Lemma refls_apart ks : forall x,
    (forall k i, In k ks -> (i < m)%nat -> In i (nth k Hs []) -> x i = 0) ->
    forall i, (i < m)%nat -> refls hv betas ks x i = x i.
  Proof.
    induction ks as [|k ks IH]; intros x H i Hi; [reflexivity|].
    rewrite refls_cons, IH.
    - apply refl_apart. intros r Hr Hin. apply (H k r); auto. now left.
    - intros k' r Hk' Hr Hin. rewrite refl_apart.
      + apply (H k' r); auto. now right.
      + intros r' Hr' Hin'. apply (H k r'); auto. now left.
    - exact Hi.
  Qed.

  Lemma refl_out k x i : ~ In i (nth k Hs []) -> refl hv betas k x i = x i.
  Proof. intros H. unfold refl, reflect. rewrite spread_out by exact H. lra. Qed.

  Lemma refl_linear k x y c d i :
    refl hv betas k (fun i => c * x i + d * y i) i = c * refl hv betas k x i + d * refl hv betas k y i.
  Proof.
    unfold refl, reflect. rewrite inner_plus_r, !inner_scal_r. lra.
  Qed.

  Lemma refls_linear ks : forall x y c d i, (i < m)%nat ->
    refls hv betas ks (fun i => c * x i + d * y i) i = c * refls hv betas ks x i + d * refls hv betas ks y i.
  Proof.
    induction ks as [|k ks IH]; intros x y c d i Hi; [reflexivity|].
    rewrite !refls_cons. rewrite <- IH by exact Hi. apply refls_ext; [|exact Hi].
    intros. apply refl_linear.
  Qed.

  Lemma refls_orthogonal ks :
    (forall k, In k ks -> orthogonal m (refl hv betas k)) -> orthogonal m (refls hv betas ks).
  Proof.
    induction ks as [|k ks IH]; intros H x y; [reflexivity|].
    rewrite !refls_cons. rewrite (IH (fun k' Hk' => H k' (or_intror Hk')) (refl hv betas k x) (refl hv betas k y)).
    apply H. now left.
  Qed.

  Lemma refls_zero ks : forall i, (i < m)%nat -> refls hv betas ks (fun _ => 0) i = 0.
  Proof. intros i Hi. apply refls_apart; auto. Qed.

  Lemma refls_sum {A} ks (f : A -> nat -> R) (l : list A) i : (i < m)%nat ->
    refls hv betas ks (fun i => fold_right (fun a s => f a i + s) 0 l) i
    = fold_right (fun a s => refls hv betas ks (f a) i + s) 0 l.
  Proof.
    intros Hi. induction l as [|a l IH].
    - now apply refls_zero.
    - cbn [fold_right]. rewrite <- IH.
      transitivity (1 * refls hv betas ks (f a) i
                    + 1 * refls hv betas ks (fun i => fold_right (fun a s => f a i + s) 0 l) i); [|lra].
      rewrite <- refls_linear by exact Hi. apply refls_ext; [|exact Hi]. intros; lra.
  Qed.

  Lemma refls_scal ks c x i : (i < m)%nat -> refls hv betas ks (fun i => c * x i) i = c * refls hv betas ks x i.
  Proof.
    intros Hi. replace (c * refls hv betas ks x i) with (c * refls hv betas ks x i + 0 * refls hv betas ks x i) by lra.
    rewrite <- refls_linear by exact Hi. apply refls_ext; [|exact Hi]. intros; lra.
  Qed.
End Reflectors.

Section Factorize.
  Variables m n : nat.
  Variables Rs Hs : list (list nat).
  Variable sq : symbolic_qr.
  Variable a : matrix R.
  Variable rho : nat -> nat.
  Variable cv : nat -> list R.
  Variable cr : nat -> list nat.

  Hypothesis Hr : sq_r_structure sq = layout n Rs.
  Hypothesis Hh : sq_h_structure sq = layout m Hs.
  Hypothesis Lr : length Rs = n.
  Hypothesis Lh : length Hs = n.
  Hypothesis Hrow : forall i, (i < m)%nat -> permuted_row sq i = Done (rho i) /\ (rho i < m)%nat.
  Hypothesis Hinj : forall i i', (i < m)%nat -> (i' < m)%nat -> rho i = rho i' -> i = i'.
  (** [cr j], [cv j]: the column factorized as number [j] *)
  Hypothesis Hcol : forall j, (j < n)%nat -> exists c, oget (sq_col_permutation sq) j = Done c /\
    matrix_column a c = Done (cv j, cr j) /\ length (cv j) = length (cr j) /\
    NoDup (cr j) /\ Forall (fun i => i < m)%nat (cr j).
  Hypothesis Hcols : s_ncols (m_structure a) = n.
  Hypothesis PH : forall j, (j < n)%nat -> exists t, nth_error Hs j = Some (j :: t) /\
    NoDup t /\ Forall (fun r => j < r < m)%nat t.
  Hypothesis PR : forall j, (j < n)%nat -> exists t, nth_error Rs j = Some (t ++ [j]) /\
    StronglySorted lt t /\ Forall (fun r => r < j)%nat t.
  Hypothesis Hmn : (n <= m)%nat.

  Definition HR (j : nat) := nth j Hs [].
  Definition RR (j : nat) := nth j Rs [].

  (** The rows column [j] may have an entry in before reflector [k] *)
  Definition support (j k r : nat) : Prop :=
    In r (map rho (cr j)) \/ exists k', (k' < k)%nat /\ In k' (RR j) /\ In r (HR k').

  Hypothesis C1 : forall j r, (j < n)%nat -> support j j r -> (r < j)%nat -> In r (RR j).
  Hypothesis C2 : forall j r, (j < n)%nat -> support j j r -> (j <= r)%nat -> In r (HR j).
  Hypothesis C3 : forall j k r, (j < n)%nat -> (k < j)%nat -> ~ In k (RR j) -> In r (HR k) -> ~ support j k r.

  Definition acol (j : nat) : nat -> R := spread (map rho (cr j)) (cv j).

  Lemma HR_spec j : (j < n)%nat -> exists t, nth_error Hs j = Some (j :: t) /\ HR j = j :: t /\
    NoDup (j :: t) /\ Forall (fun r => r < m)%nat (j :: t) /\ Forall (fun r => j <= r)%nat (j :: t).
  Proof.
    intros H. destruct (PH j H) as (t & E & N & F). exists t. split; [exact E|].
    split; [unfold HR; now apply nth_error_nth|].
    rewrite Forall_forall in F.
    split; [constructor; [intros Hin; specialize (F _ Hin); lia|exact N]|].
    split; constructor; try lia; apply Forall_forall; intros x Hx; specialize (F _ Hx); lia.
  Qed.

  Lemma RR_spec j : (j < n)%nat -> exists t, nth_error Rs j = Some (t ++ [j]) /\ RR j = t ++ [j] /\
    StronglySorted lt t /\ Forall (fun r => r < j)%nat t.
  Proof.
    intros H. destruct (PR j H) as (t & E & S & F). exists t. split; [exact E|].
    split; [unfold RR; now apply nth_error_nth|]. auto.
  Qed.

  Lemma HR_in j r : (j < n)%nat -> In r (HR j) -> (j <= r < m)%nat.
  Proof.
    intros H Hin. destruct (HR_spec j H) as (t & _ & E & _ & F1 & F2). rewrite E in Hin.
    rewrite Forall_forall in F1, F2. specialize (F1 _ Hin). specialize (F2 _ Hin). lia.
  Qed.

  (** What is computed so far: the columns before [j] *)
  Definition good (j : nat) (rv hv : list (list R)) (betas : list R) : Prop :=
    map (@length _) rv = map (@length _) Rs /\ map (@length _) hv = map (@length _) Hs /\ length betas = n /\
    (forall k, (k < j)%nat -> orthogonal m (refl m Hs hv betas k)) /\
    (forall c i, (c < j)%nat -> (i < m)%nat ->
       refls m Hs hv betas (seq 0 (S c)) (acol c) i = spread (RR c) (nth c rv []) i) /\
    (forall c, (c < j)%nat -> 0 <= spread (RR c) (nth c rv []) c).

  Lemma acol_support j i : acol j i <> 0 -> In i (map rho (cr j)).
  Proof.
    intros H. destruct (in_dec Nat.eq_dec i (map rho (cr j))) as [|Hn]; [assumption|].
    exfalso. apply H. unfold acol. now apply spread_out.
  Qed.

  (** The reflectors left out would have changed nothing. *)
  Lemma refls_skip hv betas j t : (j < n)%nat -> RR j = t ++ [j] -> Forall (fun r => r < j)%nat t ->
    forall k, (k <= j)%nat ->
    (forall i, (i < m)%nat ->
       refls m Hs hv betas (filter (fun r => existsb (Nat.eqb r) t) (seq 0 k)) (acol j) i
       = refls m Hs hv betas (seq 0 k) (acol j) i) /\
    (forall i, (i < m)%nat -> refls m Hs hv betas (seq 0 k) (acol j) i <> 0 -> support j k i).
  Proof.
    intros Hj Ej Ft. induction k as [|k IH]; intros Hk.
    - split; [reflexivity|]. intros i _ H. left. now apply acol_support.
    - destruct (IH ltac:(lia)) as [IH1 IH2].
      rewrite seq_S, filter_app, !refls_app. cbn [Nat.add filter].
      destruct (existsb (Nat.eqb k) t) eqn:Ek.
      + apply existsb_eqb in Ek. split.
        * intros i Hi. cbn. now apply refl_ext.
        * intros i Hi Hnz. cbn in Hnz.
          destruct (in_dec Nat.eq_dec i (HR k)) as [Hin|Hout].
          -- right. exists k. split; [lia|]. split; [|exact Hin]. rewrite Ej. apply in_or_app. now left.
          -- rewrite refl_out in Hnz by exact Hout. destruct (IH2 i Hi Hnz) as [Hs'|(k' & H1 & H2 & H3)].
             ++ now left.
             ++ right. exists k'. split; [lia|]. auto.
      + apply existsb_eqb_false in Ek.
        assert (Hk' : ~ In k (RR j)).
        { rewrite Ej. intros Hin. apply in_app_or in Hin as [Hin|[Hin|[]]]; [contradiction|lia]. }
        assert (Ez : forall i, refl m Hs hv betas k (refls m Hs hv betas (seq 0 k) (acol j)) i
                     = refls m Hs hv betas (seq 0 k) (acol j) i).
        { apply refl_apart. intros i Hi Hin.
          destruct (Req_dec (refls m Hs hv betas (seq 0 k) (acol j) i) 0) as [|Hnz]; [assumption|].
          exfalso. apply (C3 j k i); auto. }
        split.
        * intros i Hi. cbn. rewrite Ez. now apply IH1.
        * intros i Hi Hnz. cbn in Hnz. rewrite Ez in Hnz.
          destruct (IH2 i Hi Hnz) as [Hs'|(k' & H1 & H2 & H3)]; [now left|].
          right. exists k'. split; [lia|]. auto.
  Qed.

  Lemma refls_column hv betas j t : (j < n)%nat -> RR j = t ++ [j] -> StronglySorted lt t -> Forall (fun r => r < j)%nat t ->
    (forall i, (i < m)%nat -> refls m Hs hv betas t (acol j) i = refls m Hs hv betas (seq 0 j) (acol j) i) /\
    (forall i, (i < m)%nat -> refls m Hs hv betas t (acol j) i <> 0 -> support j j i).
  Proof.
    intros Hj Ej St Ft. destruct (refls_skip hv betas j t Hj Ej Ft j (le_n _)) as [G1 G2].
    assert (E : filter (fun r => existsb (Nat.eqb r) t) (seq 0 j) = t).
    { apply sorted_lt_unique; [apply sorted_filter, sorted_seq|exact St|].
      intros x. rewrite filter_In, existsb_eqb, in_seq. split; [tauto|]. intros Hx. split; [|exact Hx].
      rewrite Forall_forall in Ft. specialize (Ft _ Hx). lia. }
    rewrite E in G1. split; [exact G1|]. intros i Hi Hnz. apply G2; [exact Hi|]. now rewrite <- G1.
  Qed.

  Lemma scatter_ok j : (j < n)%nat -> exists x, scatter sq a j = Done x /\ length x = m /\
    forall i, coords x i = acol j i.
  Proof.
    intros Hj. destruct (Hcol j Hj) as (c & E1 & E2 & Lc & Nd & Fm).
    unfold scatter. rewrite E1. cbn [obind]. rewrite E2. cbn [obind]. rewrite Hh. cbn [layout s_nrows].
    unfold acol. revert Lc Nd Fm. generalize (cv j) (cr j). clear c E1 E2. intros vs rs Lc Nd Fm.
    assert (G : forall vs rs x, length vs = length rs -> NoDup rs -> Forall (fun i => i < m)%nat rs -> length x = m ->
       exists x', ofold (fun x '(value, row) => let! p := permuted_row sq row in oset x p value) (combine vs rs) x = Done x' /\
       length x' = m /\ forall i, coords x' i = if in_dec Nat.eq_dec i (map rho rs) then spread (map rho rs) vs i else coords x i).
    { clear vs rs Lc Nd Fm. induction vs as [|v vs IH]; intros [|r rs] x Lc Nd Fm Lx; try discriminate.
      - exists x. cbn. repeat split; auto. 
      - cbn [combine ofold]. inversion Fm as [|? ? Fr Fm']; inversion Nd as [|? ? Nr Nd']; subst.
        destruct (Hrow r Fr) as [Er Br]. rewrite Er. cbn [obind].
        rewrite oset_ok by lia. cbn [obind].
        destruct (IH rs (lset x (rho r) v)) as (x' & E' & L' & V'); [cbn in Lc; lia|exact Nd'|exact Fm'|now rewrite lset_length|].
        rewrite E'. exists x'. split; [reflexivity|]. split; [exact L'|]. intros i. rewrite V'. cbn [map].
        rewrite coords_lset by lia. 
        assert (Hnr : ~ In (rho r) (map rho rs)).
        { intros Hin. apply in_map_iff in Hin. destruct Hin as (r' & Er' & Hr'). apply Nr.
          rewrite Forall_forall in Fm'. rewrite <- (Hinj r' r); auto. }
        destruct (in_dec Nat.eq_dec i (rho r :: map rho rs)) as [Hi|Hi];
        destruct (in_dec Nat.eq_dec i (map rho rs)) as [Hi'|Hi'].
        + cbn [spread]. destruct (Nat.eqb_spec (rho r) i) as [<-|]; [contradiction|]. lra.
        + destruct Hi as [->|]; [|contradiction]. cbn [spread]. rewrite Nat.eqb_refl, spread_out by exact Hi'. lra.
        + exfalso. apply Hi. now right.
        + destruct (Nat.eqb_spec (rho r) i) as [<-|]; [|reflexivity]. exfalso. apply Hi. now left. }
    destruct (G vs rs (repeat 0 m) Lc Nd Fm (repeat_length _ _)) as (x & E & Lx & V).
    exists x. split; [exact E|]. split; [exact Lx|]. intros i. rewrite V.
    destruct (in_dec Nat.eq_dec i (map rho rs)) as [Hi|Hi]; [reflexivity|]. rewrite spread_out by exact Hi.
    unfold coords. destruct (Nat.lt_ge_cases i m) as [H|H].
    - apply nth_error_nth. rewrite nth_error_repeat. now destruct (Nat.ltb_spec i m); [|lia].
    - apply nth_overflow. now rewrite repeat_length.
  Qed.

  (** The loop over the entries of column [j] of R *)
  Lemma reflect_loop j t rv hv betas x :
    (j < n)%nat -> RR j = t ++ [j] -> StronglySorted lt t -> Forall (fun r => r < j)%nat t ->
    good j rv hv betas -> length x = m -> (forall i, coords x i = acol j i) ->
    exists x' c, ofold (reflect_entry sq (concat hv) betas j) (enumerate (t ++ [j])) (x, concat rv)
        = Done (x', concat (lset rv j c)) /\
      length x' = m /\ length c = length (RR j) /\
      (forall i, (i < m)%nat -> coords x' i = if in_dec Nat.eq_dec i t then 0 else refls m Hs hv betas t (acol j) i) /\
      (forall k i, nth_error t k = Some i -> nth_error c k = Some (refls m Hs hv betas t (acol j) i)).
  Proof.
    intros Hj Ej St Ft (Lrv & Lhv & Lb & _ & _) Lx Vx.
    assert (Er : nth_error Rs j = Some (RR j)).
    { unfold RR. apply nth_error_nth'. lia. }
    destruct (lengths_nth _ _ _ _ Lrv Er) as (c0 & Hc0 & Lc0).
    set (P := fun (pre : list (nat * nat)) (st : list R * list R) =>
      let rows := filter (fun r => negb (r =? j)%nat) (map snd pre) in
      exists c, snd st = concat (lset rv j c) /\ length (fst st) = m /\ length c = length (RR j) /\
      (forall i, (i < m)%nat -> coords (fst st) i =
         if in_dec Nat.eq_dec i rows then 0 else refls m Hs hv betas rows (acol j) i) /\
      (forall k i, nth_error rows k = Some i -> nth_error c k = Some (refls m Hs hv betas rows (acol j) i))).
    assert (Hrows : forall pre' , Forall (fun r => r < j)%nat pre' -> filter (fun r => negb (r =? j)%nat) pre' = pre').
    { induction pre' as [|p pre' IHp]; intros F; [reflexivity|]. inversion F; subst. cbn.
      destruct (Nat.eqb_spec p j); [lia|]. cbn. now rewrite IHp. }
    destruct (ofold_ok_prefix P (reflect_entry sq (concat hv) betas j) (enumerate (t ++ [j]))) with (s := (x, concat rv))
      as (s' & E' & P').
    - intros pre [idx k] post [x1 r1] El (c & Hc & L1 & Lc & V1 & V2). cbn [fst snd] in *. subst r1.
      destruct (enumerate_at _ _ _ _ El) as (Ei & Ek & _ & Epre). cbn [fst snd] in Ei, Ek.
      unfold reflect_entry. destruct (Nat.eqb_spec k j) as [->|Hkj].
      + exists (x1, concat (lset rv j c)). split; [reflexivity|]. unfold P. cbn zeta. cbn [fst snd].
        rewrite map_app, filter_app. cbn [map filter snd]. rewrite Nat.eqb_refl. cbn [negb]. rewrite app_nil_r.
        exists c. auto.
      + assert (Hlen : (length pre < length t)%nat).
        { destruct (nth_error_snoc _ _ _ _ Ek) as [[H _]|[_ H]]; [exact H|congruence]. }
        assert (Ekt : nth_error t (length pre) = Some k) by (now rewrite nth_error_app1 in Ek).
        assert (Epre' : map snd pre = firstn (length pre) t).
        { rewrite Epre, firstn_app. replace (length pre - length t)%nat with 0%nat by lia. cbn [firstn]. apply app_nil_r. }
        assert (Fpre : Forall (fun r => r < k)%nat (map snd pre)).
        { apply Forall_forall. intros r Hr0. apply In_nth_error in Hr0. destruct Hr0 as (q & Hq).
          rewrite Epre', nth_error_firstn in Hq. destruct (Nat.ltb_spec q (length pre)); [|discriminate].
          eapply (strongly_nth lt t); eauto. }
        assert (Hkn : (k < j)%nat).
        { rewrite Forall_forall in Ft. apply Ft. eapply nth_error_In; eauto. }
        assert (Fpre2 : Forall (fun r => r < j)%nat (map snd pre)).
        { eapply Forall_impl; [|exact Fpre]. cbn. intros; lia. }
        rewrite (Hrows _ Fpre2) in V1, V2.
        destruct (HR_spec k ltac:(lia)) as (tk & EHk & HRk & Nk & Bk & Gk).
        destruct (lengths_nth _ _ _ _ Lhv EHk) as (vk & Hvk & Lvk).
        rewrite Hh, Hr, !layout_pointer by lia. cbn [obind].
        assert (Ebk : oget betas k = Done (nth k betas 0)).
        { unfold oget. now rewrite (nth_error_nth' betas 0) by lia. }
        rewrite Ebk. cbn [obind]. rewrite (layout_column _ _ _ _ EHk). cbn [obind].
        rewrite Nat.add_1_r, (offset_same Hs hv k), (offset_same Hs hv (S k)) by (symmetry; exact Lhv).
        rewrite (slice_concat _ _ _ Hvk). cbn [obind].
        destruct (apply_householder_ok x1 (nth k betas 0) (k :: tk) vk) as (x2 & E2 & L2 & V2');
          [now rewrite L1|exact Nk|exact Lvk|].
        rewrite E2. cbn [obind].
        assert (Hxk : (k < length x2)%nat) by lia.
        assert (Exk : oget x2 k = Done (coords x2 k)).
        { unfold oget, coords. now rewrite (nth_error_nth' x2 0). }
        rewrite Exk. cbn [obind].
        assert (Hc' : nth_error (lset rv j c) j = Some c).
        { apply nth_error_lset_eq. rewrite <- (map_length (@length R)), Lrv, map_length. lia. }
        assert (Lrv' : map (@length _) (lset rv j c) = map (@length _) Rs).
        { eapply lengths_lset; eauto. }
        rewrite (offset_same Rs (lset rv j c) j) by (symmetry; exact Lrv').
        assert (Hidx : (idx < length c)%nat) by (rewrite Lc, Ej, app_length; cbn; lia).
        rewrite (oset_concat _ _ _ _ _ Hc' Hidx). cbn [obind]. rewrite lset_lset.
        rewrite oset_ok by exact Hxk. cbn [obind].
        eexists. split; [reflexivity|]. unfold P. cbn zeta. cbn [fst snd].
        rewrite map_app, filter_app, (Hrows _ Fpre2). cbn [map filter snd].
        destruct (Nat.eqb_spec k j); [lia|]. cbn [negb].
        assert (Hnin : ~ In k (map snd pre)).
        { intros Hin. rewrite Forall_forall in Fpre. specialize (Fpre _ Hin). lia. }
        (* the value of the next vector *)
        assert (Estep : forall i, (i < m)%nat -> ~ In i (map snd pre) ->
          coords x2 i = refls m Hs hv betas (map snd pre ++ [k]) (acol j) i).
        { intros i Hi Hni. rewrite V2', L1, refls_app. cbn. unfold refl.
          replace (nth k Hs []) with (k :: tk) by (symmetry; now apply nth_error_nth).
          replace (nth k hv []) with vk by (symmetry; now apply nth_error_nth).
          unfold reflect. 
          rewrite (V1 i Hi). destruct (in_dec Nat.eq_dec i (map snd pre)) as [|_]; [contradiction|]. f_equal. f_equal. f_equal.
          apply rsum_ext. intros r Hr0. apply in_seq in Hr0. rewrite (V1 r) by lia.
          destruct (in_dec Nat.eq_dec r (map snd pre)) as [Hin|]; [|reflexivity].
          rewrite spread_out; [lra|]. intros Hin2. rewrite Forall_forall in Fpre, Gk.
          specialize (Fpre _ Hin). specialize (Gk _ Hin2). lia. }
        assert (Eold : forall i, In i (map snd pre) -> coords x2 i = 0).
        { intros i Hin. assert (Hi : (i < m)%nat). { rewrite Forall_forall in Fpre. specialize (Fpre _ Hin). lia. }
          rewrite V2', L1. unfold reflect. rewrite (V1 i Hi).
          destruct (in_dec Nat.eq_dec i (map snd pre)) as [_|]; [|contradiction].
          rewrite spread_out; [lra|]. intros Hin2. rewrite Forall_forall in Fpre, Gk.
          specialize (Fpre _ Hin). specialize (Gk _ Hin2). lia. }
        exists (lset c idx (coords x2 k)). split; [reflexivity|]. split; [rewrite lset_length; lia|].
        split; [now rewrite lset_length|]. split.
        * intros i Hi. rewrite coords_lset by exact Hxk.
          destruct (Nat.eqb_spec k i) as [<-|Hki].
          -- destruct (in_dec Nat.eq_dec k (map snd pre ++ [k])) as [|Hn]; [reflexivity|].
             exfalso. apply Hn, in_or_app. right. now left.
          -- destruct (in_dec Nat.eq_dec i (map snd pre ++ [k])) as [Hin|Hn].
             ++ apply in_app_or in Hin as [Hin|[Hin|[]]]; [now apply Eold|congruence].
             ++ apply Estep; auto. intros Hin. apply Hn, in_or_app. now left.
        * intros k' i Hk'. apply nth_error_snoc in Hk' as [[Hlt Hk']|[-> ->]].
          -- rewrite map_length in Hlt. rewrite nth_error_lset_ne by lia. rewrite (V2 _ _ Hk').
             f_equal. rewrite refls_app. cbn. symmetry. apply refl_out.
             replace (nth k Hs []) with (k :: tk) by (symmetry; now apply nth_error_nth).
             intros Hin. apply nth_error_In in Hk'. rewrite Forall_forall in Fpre, Gk.
             specialize (Fpre _ Hk'). specialize (Gk _ Hin). lia.
          -- rewrite map_length. rewrite <- Ei. rewrite nth_error_lset_eq by exact Hidx. f_equal.
             apply Estep; [lia|exact Hnin].
    - cbn zeta. unfold P. cbn [fst snd map filter]. exists c0. rewrite lset_same by exact Hc0.
      split; [reflexivity|]. split; [exact Lx|]. split; [exact Lc0|]. split.
      + intros i Hi. cbn. apply Vx.
      + intros [|k] i Hk; discriminate.
    - destruct s' as [x' r']. destruct P' as (c & Hc & L' & Lc & V1 & V2). cbn [fst snd] in *. subst r'.
      rewrite enumerate_snd, filter_app in V1, V2. cbn [filter] in V1, V2. rewrite Nat.eqb_refl in V1, V2.
      cbn [negb] in V1, V2. rewrite app_nil_r, (Hrows t Ft) in V1, V2.
      exists x', c. auto.
  Qed.

  (** The loop that gathers the rest of the column *)
  Lemma gather_loop j rows hv x :
    nth_error Hs j = Some rows -> NoDup rows -> Forall (fun r => r < m)%nat rows ->
    map (@length _) hv = map (@length _) Hs -> length x = m ->
    exists x', ofold (gather_entry (offset Hs j)) (enumerate rows) (x, concat hv)
      = Done (x', concat (lset hv j (map (coords x) rows))).
  Proof.
    intros Ej Nd Fm Lhv Lx.
    destruct (lengths_nth _ _ _ _ Lhv Ej) as (c0 & Hc0 & Lc0).
    set (P := fun (pre : list (nat * nat)) (st : list R * list R) =>
      exists c, snd st = concat (lset hv j c) /\ length (fst st) = m /\ length c = length rows /\
      (forall i, ~ In i (map snd pre) -> coords (fst st) i = coords x i) /\
      (forall k i, nth_error (map snd pre) k = Some i -> nth_error c k = Some (coords x i))).
    destruct (ofold_ok_prefix P (gather_entry (offset Hs j)) (enumerate rows)) with (s := (x, concat hv))
      as (s' & E' & P').
    - intros pre [idx r] post [x1 r1] El (c & Hc & L1 & Lc & V1 & V2). cbn [fst snd] in *. subst r1.
      destruct (enumerate_at _ _ _ _ El) as (Ei & Ek & _ & Epre). cbn [fst snd] in Ei, Ek.
      assert (Hrm : (r < m)%nat). { rewrite Forall_forall in Fm. apply Fm. eapply nth_error_In; eauto. }
      assert (Hnin : ~ In r (map snd pre)).
      { intros Hin. rewrite Epre in Hin. apply In_nth_error in Hin. destruct Hin as (q & Hq).
        rewrite nth_error_firstn in Hq. destruct (Nat.ltb_spec q (length pre)); [|discriminate].
        rewrite NoDup_nth_error in Nd. assert (q = length pre); [|lia].
        apply Nd; [eapply nth_error_lt; eauto|congruence]. }
      unfold gather_entry.
      assert (Exr : oget x1 r = Done (coords x1 r)).
      { unfold oget, coords. now rewrite (nth_error_nth' x1 0) by lia. }
      rewrite Exr. cbn [obind].
      assert (Hc' : nth_error (lset hv j c) j = Some c).
      { apply nth_error_lset_eq. eapply nth_error_lt; eauto. }
      assert (Lhv' : map (@length _) (lset hv j c) = map (@length _) Hs).
      { eapply lengths_lset; eauto. }
      assert (Hidx : (idx < length c)%nat). { rewrite Lc, Ei. eapply nth_error_lt; eauto. }
      rewrite (offset_same Hs (lset hv j c) j) by (symmetry; exact Lhv').
      rewrite (oset_concat _ _ _ _ _ Hc' Hidx). cbn [obind]. rewrite lset_lset.
      rewrite oset_ok by lia. cbn [obind]. eexists. split; [reflexivity|].
      unfold P. cbn [fst snd]. rewrite map_app. cbn [map snd].
      exists (lset c idx (coords x1 r)). split; [reflexivity|]. split; [now rewrite lset_length|].
      split; [now rewrite lset_length|]. split.
      + intros i Hi. rewrite coords_lset by lia. destruct (Nat.eqb_spec r i) as [<-|].
        * exfalso. apply Hi, in_or_app. right. now left.
        * apply V1. intros Hin. apply Hi, in_or_app. now left.
      + intros k i Hk. apply nth_error_snoc in Hk as [[Hlt Hk]|[-> ->]].
        * rewrite map_length in Hlt. rewrite nth_error_lset_ne by lia. now apply V2.
        * rewrite map_length. rewrite <- Ei. rewrite nth_error_lset_eq by exact Hidx. f_equal. now apply V1.
    - unfold P. cbn [fst snd map]. exists c0. rewrite lset_same by exact Hc0. repeat split; auto.
      intros [|k] i Hk; discriminate.
    - destruct s' as [x' r']. destruct P' as (c & Hc & L' & Lc & V1 & V2). cbn [fst snd] in *. subst r'.
      rewrite enumerate_snd in V2. exists x'. rewrite E'. repeat f_equal.
      apply nth_error_ext. intros k. rewrite nth_error_map.
      destruct (nth_error rows k) as [i|] eqn:Ek; cbn; [now apply V2|].
      apply nth_error_None in Ek. apply nth_error_None. lia.
  Qed.

  Lemma column_ok j rv hv betas : (j < n)%nat -> good j rv hv betas ->
    exists rv' hv' betas', factorize_column sq a (Qr (concat rv) (concat hv) betas) j
        = Done (Qr (concat rv') (concat hv') betas') /\ good (S j) rv' hv' betas'.
  Proof.
    intros Hj G. unfold factorize_column. cbn [qr_r_values qr_h_values qr_betas].
    destruct (scatter_ok j Hj) as (x & Ex & Lx & Vx). rewrite Ex. cbn [obind].
    destruct (RR_spec j Hj) as (t & ERj & Ej & St & Ft).
    destruct (HR_spec j Hj) as (th & EHj & Eh & Nh & Bh & Gh).
    rewrite Hr, Hh, (layout_column _ _ _ _ ERj). cbn [obind].
    destruct (reflect_loop j t rv hv betas x Hj Ej St Ft G Lx Vx) as (x1 & c & E1 & L1 & Lc & V1 & W1).
    rewrite E1. cbn [obind]. rewrite (layout_column _ _ _ _ EHj), !layout_pointer by lia. cbn [obind].
    rewrite Nat.add_1_r. destruct G as (Lrv & Lhv & Lb & Gor & Gcol & Gdiag).
    destruct (gather_loop j (j :: th) hv x1 EHj Nh Bh Lhv L1) as (x2 & E2). rewrite E2. cbn [obind].
    set (z := refls m Hs hv betas t (acol j)) in *.
    destruct (refls_column hv betas j t Hj Ej St Ft) as [Zs Zsup]. fold z in Zs, Zsup.
    set (v := map (coords x1) (j :: th)).
    assert (Hjhv : (j < length hv)%nat).
    { rewrite <- (map_length (@length R)), Lhv, map_length. lia. }
    assert (Hjrv : (j < length rv)%nat).
    { rewrite <- (map_length (@length R)), Lrv, map_length. lia. }
    assert (Ev : nth_error (lset hv j v) j = Some v) by (now apply nth_error_lset_eq).
    assert (Lv : length v = length (j :: th)) by (unfold v; apply map_length).
    assert (Lhv1 : map (@length _) (lset hv j v) = map (@length _) Hs) by (eapply lengths_lset; eauto).
    rewrite (offset_same Hs (lset hv j v) j), (offset_same Hs (lset hv j v) (S j)) by (symmetry; exact Lhv1).
    rewrite (slice_concat _ _ _ Ev). cbn [obind].
    assert (Hvne : v <> []) by (unfold v; discriminate).
    destruct (householder_ok v Hvne) as (u & nv & beta & Eh' & _). rewrite Eh'. cbn [obind].
    assert (Hz : forall k, (k < length (j :: th))%nat -> coords v k = z (nth k (j :: th) 0%nat)).
    { intros k Hk. assert (Hnk : nth_error (j :: th) k = Some (nth k (j :: th) 0%nat)) by (now apply nth_error_nth').
      assert (Hin : In (nth k (j :: th) 0%nat) (j :: th)) by (eapply nth_error_In; eauto).
      rewrite (coords_nth_error v k (coords x1 (nth k (j :: th) 0%nat))) by (unfold v; now apply map_nth_error).
      rewrite Forall_forall in Bh, Gh. rewrite V1 by (now apply Bh).
      destruct (in_dec Nat.eq_dec _ t) as [Hint|]; [|reflexivity].
      exfalso. rewrite Forall_forall in Ft. specialize (Ft _ Hint). specialize (Gh _ Hin). lia. }
    destruct (eliminate_ok m z (j :: th) v u nv beta Bh Nh ltac:(discriminate) Lv Hz Eh') as (Lu & Env & Orth & El & Eout).
    rewrite <- (concat_lset (lset hv j v) j v u Ev), lset_lset.
    rewrite oset_ok by lia. cbn [obind].
    assert (Hc' : nth_error (lset rv j c) j = Some c) by (now apply nth_error_lset_eq).
    assert (Lrv1 : map (@length _) (lset rv j c) = map (@length _) Rs).
    { eapply lengths_lset; eauto. now rewrite Lc, Ej. }
    rewrite (offset_same Rs (lset rv j c) (S j)) by (symmetry; exact Lrv1).
    assert (Lct : length c = S (length t)) by (rewrite Lc, Ej, app_length; cbn; lia).
    rewrite (offset_S _ _ _ Hc').
    unfold osub. destruct (Nat.leb_spec 1 (offset (lset rv j c) j + length c)); [|lia]. cbn [obind].
    replace (offset (lset rv j c) j + length c - 1)%nat with (offset (lset rv j c) j + length t)%nat by lia.
    assert (Hlast : (length t < length c)%nat) by lia.
    rewrite (oset_concat _ _ _ _ _ Hc' Hlast). cbn [obind]. rewrite lset_lset.
    exists (lset rv j (lset c (length t) nv)), (lset hv j u), (lset betas j beta). split; [reflexivity|].
    assert (Nhv : forall k, k <> j -> nth k (lset hv j u) [] = nth k hv []).
    { intros k Hk. destruct (nth_error hv k) as [w|] eqn:E.
      - rewrite (nth_error_nth _ _ _ E). apply nth_error_nth. rewrite nth_error_lset_ne; auto.
      - rewrite !nth_overflow; auto; [now apply nth_error_None|]. rewrite lset_length. now apply nth_error_None. }
    assert (Nrv : forall k, k <> j -> nth k (lset rv j (lset c (length t) nv)) [] = nth k rv []).
    { intros k Hk. destruct (nth_error rv k) as [w|] eqn:E.
      - rewrite (nth_error_nth _ _ _ E). apply nth_error_nth. rewrite nth_error_lset_ne; auto.
      - rewrite !nth_overflow; auto; [now apply nth_error_None|]. rewrite lset_length. now apply nth_error_None. }
    assert (Nbe : forall k, k <> j -> nth k (lset betas j beta) 0 = nth k betas 0).
    { intros k Hk. fold (coords (lset betas j beta)). change (coords (lset betas j beta) k = coords betas k).
      rewrite coords_lset by lia. destruct (Nat.eqb_spec j k); [congruence|reflexivity]. }
    assert (Rold : forall ks y, (forall k, In k ks -> (k < j)%nat) ->
      refls m Hs (lset hv j u) (lset betas j beta) ks y = refls m Hs hv betas ks y).
    { intros ks y Hks. apply refls_values. intros k Hk. specialize (Hks k Hk). split; [apply Nhv|apply Nbe]; lia. }
    assert (Rnew : forall y, refl m Hs (lset hv j u) (lset betas j beta) j y = reflect m beta (spread (j :: th) u) y).
    { intros y. unfold refl. f_equal.
      - change (coords (lset betas j beta) j = beta). rewrite coords_lset by lia. now rewrite Nat.eqb_refl.
      - f_equal; apply nth_error_nth; [exact EHj|now apply nth_error_lset_eq]. }
    split; [|split; [|split; [now rewrite lset_length|split; [|split]]]].
    - eapply lengths_lset; eauto. rewrite lset_length, Lc, Ej. reflexivity.
    - eapply lengths_lset; eauto.
    - intros k Hk. destruct (Nat.eq_dec k j) as [->|Hkj].
      + intros y y'. rewrite !Rnew. apply Orth.
      + intros y y'. unfold refl. rewrite Nhv, Nbe by lia. apply Gor. lia.
    - intros c' i Hc2 Hi. destruct (Nat.eq_dec c' j) as [->|Hcj].
      + rewrite seq_S, refls_app. cbn [Nat.add]. rewrite refls_cons, refls_nil, Rnew.
        rewrite Rold by (intros k Hk; apply in_seq in Hk; lia).
        rewrite (reflect_ext m beta _ (spread (j :: th) u) _ z i Hi) by (auto; intros; symmetry; auto).
        rewrite Ej. rewrite (nth_error_nth (lset rv j (lset c (length t) nv)) j []
                               (nth_error_lset_eq _ _ _ Hjrv)).
        assert (NdR : NoDup (t ++ [j])).
        { apply sorted_lt_NoDup in St. apply NoDup_app_snoc; [exact St|].
          intros Hin. rewrite Forall_forall in Ft. specialize (Ft _ Hin). lia. }
        destruct (in_dec Nat.eq_dec i (j :: th)) as [Hin|Hout].
        * apply In_nth_error in Hin. destruct Hin as (k & Hk). pose proof (nth_error_lt _ _ _ Hk) as Hk'.
          pose proof (El k Hk') as Elk. rewrite (nth_error_nth _ _ _ Hk) in Elk. rewrite Elk.
          destruct k as [|k].
          -- cbn in Hk. injection Hk as <-. rewrite (spread_in _ _ (length t) j nv NdR).
             ++ unfold e1, delta. cbn. lra.
             ++ apply nth_error_app_new.
             ++ apply nth_error_lset_eq. lia.
          -- rewrite spread_out; [unfold e1, delta; cbn; lra|].
             intros Hin. assert (Hji : (j < i)%nat).
             { cbn in Hk. apply nth_error_In in Hk. inversion Nh as [|? ? Nj _]; subst.
               assert (i <> j) by (intros ->; contradiction).
               rewrite Forall_forall in Gh. specialize (Gh i (or_intror Hk)). lia. }
             apply in_app_or in Hin as [Hin|[Hin|[]]]; [|lia].
             rewrite Forall_forall in Ft. specialize (Ft _ Hin). lia.
        * rewrite Eout by exact Hout.
          destruct (in_dec Nat.eq_dec i t) as [Hit|Hit].
          -- apply In_nth_error in Hit. destruct Hit as (k & Hk).
             rewrite (spread_in _ _ k i (z i) NdR); [reflexivity| |].
             ++ now apply nth_error_app_old.
             ++ pose proof (nth_error_lt _ _ _ Hk). rewrite nth_error_lset_ne by lia. now apply W1.
          -- assert (Hij : i <> j) by (intros ->; apply Hout; now left).
             rewrite spread_out.
             ++ destruct (Req_dec (z i) 0) as [|Hnz]; [assumption|]. exfalso.
                pose proof (Zsup i Hi Hnz) as Hs'. destruct (Nat.lt_ge_cases i j) as [Hlt|Hge].
                ** pose proof (C1 j i Hj Hs' Hlt) as Hin. rewrite Ej in Hin.
                   apply in_app_or in Hin as [Hin|[Hin|[]]]; [contradiction|lia].
                ** pose proof (C2 j i Hj Hs' Hge) as Hin. rewrite Eh in Hin. contradiction.
             ++ intros Hin. apply in_app_or in Hin as [Hin|[Hin|[]]]; [contradiction|lia].
      + rewrite Rold by (intros k Hk; apply in_seq in Hk; lia). rewrite Nrv by exact Hcj. apply Gcol; lia.
    - intros c' Hc2. destruct (Nat.eq_dec c' j) as [->|Hcj].
      + rewrite Ej. rewrite (nth_error_nth (lset rv j (lset c (length t) nv)) j [] (nth_error_lset_eq _ _ _ Hjrv)).
        rewrite (spread_in _ _ (length t) j nv).
        * rewrite Env. apply sqrt_pos.
        * apply sorted_lt_NoDup in St. apply NoDup_app_snoc; [exact St|].
          intros Hin. rewrite Forall_forall in Ft. specialize (Ft _ Hin). lia.
        * apply nth_error_app_new.
        * apply nth_error_lset_eq. lia.
      + rewrite Nrv by exact Hcj. apply Gdiag. lia.
  Qed.

  Lemma factorize_ok : exists rv hv betas, factorize sq a = Done (Qr (concat rv) (concat hv) betas) /\
    map (@length _) rv = map (@length _) Rs /\ map (@length _) hv = map (@length _) Hs /\ length betas = n /\
    (forall k, (k < n)%nat -> orthogonal m (refl m Hs hv betas k)) /\
    (forall c i, (c < n)%nat -> (i < m)%nat ->
       refls m Hs hv betas (seq 0 n) (acol c) i = spread (RR c) (nth c rv []) i) /\
    (forall c, (c < n)%nat -> 0 <= spread (RR c) (nth c rv []) c).
  Proof.
    unfold factorize, qr_new. rewrite Hcols, Hr, Hh. cbn [layout s_row_indices s_ncols]. rewrite Lh.
    set (P := fun (pre : list nat) (q : qr R) => exists rv hv betas,
      q = Qr (concat rv) (concat hv) betas /\ good (length pre) rv hv betas).
    destruct (ofold_ok_prefix P (factorize_column sq a) (seq 0 n))
      with (s := Qr (repeat (nzero : R) (length (concat Rs))) (repeat nzero (length (concat Hs))) (repeat nzero n))
      as (q & E & (rv & hv & betas & -> & G)).
    - intros pre j post q El (rv & hv & betas & -> & G).
      assert (Ej : j = length pre /\ (j < n)%nat).
      { pose proof (nth_error_seq 0 (length pre) n) as N. rewrite El, nth_error_app2, Nat.sub_diag in N by lia.
        cbn [nth_error] in N. destruct (Nat.ltb_spec (length pre) n); [|discriminate]. injection N as ->. cbn. lia. }
      destruct Ej as [-> Hj].
      destruct (column_ok (length pre) rv hv betas Hj G) as (rv' & hv' & betas' & E' & G'). eexists.
      split; [exact E'|]. exists rv', hv', betas'. split; [reflexivity|]. rewrite app_length. cbn [length].
      now rewrite Nat.add_1_r.
    - assert (Ez : forall cols : list (list nat),
        repeat (nzero : R) (length (concat cols)) = concat (map (fun c => repeat 0 (length c)) cols) /\
        map (@length _) (map (fun c => repeat 0 (length c)) cols) = map (@length _) cols).
      { induction cols as [|c0 cols [IH1 IH2]]; [split; reflexivity|]. cbn [concat map].
        rewrite app_length, repeat_app, IH1, IH2, repeat_length. split; reflexivity. }
      exists (map (fun c => repeat 0 (length c)) Rs), (map (fun c => repeat 0 (length c)) Hs), (repeat 0 n).
      destruct (Ez Rs) as [E1 E2]. destruct (Ez Hs) as [E3 E4]. split; [rewrite E1, E3; reflexivity|].
      split; [exact E2|]. split; [exact E4|]. split; [apply repeat_length|]. cbn [length]. split; [intros; lia|]. split; intros; lia.
    - rewrite seq_length in G. destruct G as (G1 & G2 & G3 & G4 & G5 & G6).
      exists rv, hv, betas. split; [exact E|]. split; [exact G1|]. split; [exact G2|]. split; [exact G3|].
      split; [exact G4|]. split; [|exact G6]. intros c i Hc Hi. rewrite <- (G5 c i Hc Hi).
      replace n with (S c + (n - S c))%nat by lia. rewrite seq_app, refls_app. cbn [Nat.add].
      apply refls_apart; [|exact Hi]. intros k r Hk Hr' Hin. apply in_seq in Hk. rewrite G5 by lia.
      apply spread_out. intros Hin'. destruct (RR_spec c Hc) as (t & _ & Ec & _ & Ft). rewrite Ec in Hin'.
      assert (Hkr : (k <= r)%nat) by (apply (HR_in k r); [lia|exact Hin]).
      apply in_app_or in Hin' as [Hin'|[Hin'|[]]]; [|lia]. rewrite Forall_forall in Ft. specialize (Ft _ Hin'). lia.
  Qed.

  (** The right-hand side *)
  Lemma q_tr_mul_ok rv hv betas b :
    map (@length _) hv = map (@length _) Hs -> length betas = n -> length b = m ->
    exists y0 y, q_tr_mul sq (Qr (concat rv) (concat hv) betas) b = Done y /\ length y = m /\
      (forall i, (i < m)%nat -> y0 (rho i) = coords b i) /\
      forall i, (i < m)%nat -> coords y i = refls m Hs hv betas (seq 0 n) y0 i.
  Proof.
    intros Lhv Lb Lbm. unfold q_tr_mul. rewrite Hh. cbn [layout s_nrows s_ncols]. rewrite Lbm, Nat.eqb_refl.
    cbn [oassert obind]. 
    set (P1 := fun (pre : list nat) (y : list R) => length y = m /\ forall i, In i pre -> coords y (rho i) = coords b i).
    destruct (ofold_ok_prefix P1 (fun y i => let! p := permuted_row sq i in let! x := oget b i in oset y p x) (seq 0 m))
      with (s := repeat (nzero : R) m) as (y0 & E0 & L0 & V0).
    - intros pre i post y El [Ly Vy].
      assert (Hi : (i < m)%nat). { assert (In i (seq 0 m)) by (rewrite El; apply in_or_app; right; now left).
        apply in_seq in H. lia. }
      destruct (Hrow i Hi) as [Er Bi]. rewrite Er. cbn [obind]. unfold oget.
      rewrite (coords_get b i) by lia. cbn [obind]. rewrite oset_ok by lia. eexists. split; [reflexivity|].
      split; [now rewrite lset_length|]. intros k Hk. rewrite coords_lset by lia.
      destruct (Nat.eqb_spec (rho i) (rho k)) as [Ek|Ek].
      + f_equal. apply Hinj; auto. assert (Hin : In k (seq 0 m)).
        { rewrite El. apply in_app_or in Hk as [Hk|[->|[]]]; apply in_or_app; [now left|right; now left]. }
        apply in_seq in Hin. lia.
      + apply in_app_or in Hk as [Hk|[->|[]]]; [now apply Vy|congruence].
    - split; [apply repeat_length|]. intros i [].
    - rewrite E0. cbn [obind].
      set (P2 := fun (pre : list nat) (y : list R) => length y = m /\
        forall i, (i < m)%nat -> coords y i = refls m Hs hv betas pre (coords y0) i).
      destruct (ofold_ok_prefix P2 (fun y j =>
        let! (start, stop) := index_column_range (layout m Hs) j in
        let! rows := index_column (layout m Hs) j in
        let! beta := oget betas j in
        let! values := oslice (concat hv) start stop in
        apply_householder y beta rows values) (seq 0 (length Hs))) with (s := y0) as (y & Ey & Ly & Vy).
      + intros pre j post y El [Ly Vy].
        assert (Hj : (j < n)%nat). { assert (In j (seq 0 (length Hs))) by (rewrite El; apply in_or_app; right; now left).
          apply in_seq in H. lia. }
        destruct (HR_spec j Hj) as (th & EHj & Eh & Nh & Bh & Gh).
        destruct (lengths_nth _ _ _ _ Lhv EHj) as (vj & Hvj & Lvj).
        rewrite layout_range by lia. cbn [obind]. rewrite (layout_column _ _ _ _ EHj). cbn [obind].
        unfold oget. rewrite (coords_get betas j) by lia. cbn [obind].
        rewrite (offset_same Hs hv j), (offset_same Hs hv (S j)) by (symmetry; exact Lhv).
        rewrite (slice_concat _ _ _ Hvj). cbn [obind].
        destruct (apply_householder_ok y (coords betas j) (j :: th) vj) as (y' & E' & L' & V');
          [now rewrite Ly|exact Nh|exact Lvj|].
        exists y'. split; [exact E'|]. split; [lia|]. intros i Hi. rewrite V', Ly, refls_app, refls_cons, refls_nil.
        unfold refl. replace (nth j Hs []) with (j :: th) by (symmetry; now apply nth_error_nth).
        replace (nth j hv []) with vj by (symmetry; now apply nth_error_nth).
        apply reflect_ext; auto.
      + split; [exact L0|]. reflexivity.
      + exists (coords y0), y. split; [exact Ey|]. split; [exact Ly|]. split.
        * intros i Hi. apply V0. apply in_seq. lia.
        * rewrite <- Lh. exact Vy.
  Qed.
End Factorize.
