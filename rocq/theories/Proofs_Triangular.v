(** The triangular solve *)
From Coq Require Import List Arith Bool Lia Permutation Sorted Reals Lra.
From Verif Require Import Num Outcome Lib ModelSparse Spec_Sparse Spec_Linear Proofs_Sparse Proofs_Convert NumR Proofs_Real.
Import ListNotations.
Local Open Scope nat_scope.

Lemma represents_ex {T} (zero : T) (m : matrix T) :
  well_formed_matrix m -> exists A, represents zero m A.
Proof.
  intros W. destruct (csc_of m W) as (L & C & E).
  exists (fun i j => match find (fun t => (cell_col t =? j) && (cell_row t =? i)) L with
                     | Some t => snd t | None => zero end).
  intros i j. unfold element. rewrite E. rewrite csc_entry, csc_structural by assumption.
  destruct (find _ L) as [[[c r] v]|] eqn:F.
  - apply find_some in F. destruct F as [Hin Hb]. apply andb_true_iff in Hb. cbn in Hb.
    destruct Hb as [H1 H2]. apply Nat.eqb_eq in H1, H2. subst. left. exact Hin.
  - right. split; [reflexivity|]. intros [v Hin]. pose proof (find_none _ _ F _ Hin) as G.
    cbn in G. rewrite !Nat.eqb_refl in G. discriminate.
Qed.

Section Generic.
  Context {F : Type} {NF : Num F}.
  Local Open Scope num_scope.
  Notation cell := (nat * nat * F)%type.

  Definition row_lt (a b : cell) : Prop := (cell_row a < cell_row b)%nat.

  Lemma back_substitute_ok i c (C : list cell) b :
    StronglySorted row_lt C -> Forall (fun t => (cell_row t < length b)%nat) C ->
    exists b', back_substitute i c (map (fun t => (snd t, cell_row t)) C) b = Done b' /\
      length b' = length b /\
      (forall t x, In t C -> (cell_row t < i)%nat -> nth_error b (cell_row t) = Some x ->
         nth_error b' (cell_row t) = Some (x - c * snd t)) /\
      (forall r, ((i <= r)%nat \/ (forall t, In t C -> cell_row t <> r)) -> nth_error b' r = nth_error b r).
  Proof.
    intros Hs. revert b. induction Hs as [|t C Hs IH G]; intros b B.
    - exists b. cbn. repeat split; auto. contradiction.
    - inversion B as [|? ? Ht B']; subst. cbn [map back_substitute].
      rewrite Forall_forall in G.
      destruct (Nat.ltb_spec (cell_row t) i) as [Hi|Hi].
      + destruct (nth_error_ex b (cell_row t) Ht) as [x Hx].
        unfold oget. rewrite Hx. cbn [obind]. rewrite oset_ok by exact Ht. cbn [obind].
        destruct (IH (lset b (cell_row t) (x - c * snd t))) as (b' & E & El & E1 & E2).
        { eapply Forall_impl; [|exact B']. intros; now rewrite lset_length. }
        exists b'. rewrite lset_length in El. split; [exact E|]. split; [exact El|]. split.
        * intros u y [<-|Hu] Hui Hy.
          -- rewrite Hx in Hy. injection Hy as <-. rewrite E2.
             ++ now apply nth_error_lset_eq.
             ++ right. intros u Hu E'. specialize (G u Hu). unfold row_lt in G. lia.
          -- apply E1; auto. rewrite nth_error_lset_ne; [exact Hy|].
             specialize (G u Hu). unfold row_lt in G. lia.
        * intros r Hr. rewrite E2.
          -- apply nth_error_lset_ne. destruct Hr as [Hr|Hr]; [lia|]. specialize (Hr t (or_introl eq_refl)). exact Hr.
          -- destruct Hr as [Hr|Hr]; [now left|]. right. intros u Hu. apply Hr. now right.
      + exists b. split; [reflexivity|]. split; [reflexivity|]. split; [|auto].
        intros u y [<-|Hu] Hui; [lia|]. specialize (G u Hu). unfold row_lt in G. lia.
  Qed.

  (** Row [i], column [i] holds [v], and nothing is below it. *)
  Definition pivot (m : matrix F) (i : nat) (v : F) : Prop :=
    entry m i i v /\ forall r, structural (m_structure m) r i -> (r <= i)%nat.

  Lemma column_sorted nrows ncols (L : list cell) j :
    cells nrows ncols L -> StronglySorted row_lt (filter (fun t => (cell_col t =? j)%nat) L).
  Proof.
    intros [Hs _]. induction Hs as [|z l _ IH G]; cbn; [constructor|].
    destruct (Nat.eqb_spec (cell_col z) j) as [E|]; [|exact IH]. constructor; [exact IH|].
    rewrite Forall_forall in *. intros w Hw. apply filter_In in Hw. destruct Hw as [Hw Ew].
    apply Nat.eqb_eq in Ew. specialize (G w Hw). unfold cell_lt, row_lt in *. lia.
  Qed.

  Lemma nlast_map {A B} (f : A -> B) l : nlast (map f l) = option_map f (nlast l).
  Proof. unfold nlast. rewrite map_length. apply nth_error_map. Qed.

  Lemma nlast_none {A} (l : list A) : nlast l = None -> l = [].
  Proof.
    unfold nlast. destruct l as [|x l]; [reflexivity|]. intros H. apply nth_error_None in H. cbn in H. lia.
  Qed.

  Lemma nlast_snoc {A} (l : list A) x : nlast (l ++ [x]) = Some x.
  Proof.
    unfold nlast. rewrite app_length. cbn. replace (length l + 1 - 1)%nat with (length l) by lia.
    apply nth_error_app_new.
  Qed.

  Variable m : matrix F.
  Hypothesis W : well_formed_matrix m.
  Hypothesis Hsq : (s_nrows (m_structure m) <= s_ncols (m_structure m))%nat.
  Let n := s_nrows (m_structure m).
  Hypothesis zero_zero : (nzero =? nzero) = true.

  Definition solvable (i : nat) : Prop := exists v, pivot m i v /\ (v =? nzero) = false.

  (** One round *)
  Lemma triangular_step_ok i b :
    (i < n)%nat -> length b = n ->
    exists ok b', triangular_step m i b = Done (ok, b') /\ length b' = n /\
      (ok = true <-> solvable i) /\
      (ok = true -> exists v x, pivot m i v /\ nth_error b i = Some x /\
         let c := x / v in
         nth_error b' i = Some c /\
         (forall r y w, (r < i)%nat -> nth_error b r = Some y -> entry m r i w ->
            nth_error b' r = Some (y - c * w)) /\
         (forall r, (i < r)%nat \/ ((r < i)%nat /\ ~ structural (m_structure m) r i) ->
            nth_error b' r = nth_error b r)).
  Proof.
    intros Hi Hb. destruct (csc_of m W) as (L & C & E). fold n in C, E.
    set (ncols := s_ncols (m_structure m)) in *.
    assert (Ecol : matrix_column m i =
      Done (map snd (filter (fun t => (cell_col t =? i)%nat) L), map cell_row (filter (fun t => (cell_col t =? i)%nat) L))).
    { rewrite E. apply csc_index_column; [exact C|]. unfold n in Hi. unfold ncols. lia. }
    unfold triangular_step. rewrite Ecol. cbn [obind].
    set (Ci := filter (fun t => (cell_col t =? i)%nat) L).
    assert (Hs : StronglySorted row_lt Ci) by (eapply column_sorted; eauto).
    assert (HC : forall t, In t Ci <-> In t L /\ cell_col t = i).
    { intros t. unfold Ci. rewrite filter_In, Nat.eqb_eq. reflexivity. }
    assert (Hent : forall r v, entry m r i v <-> In (i, r, v) Ci).
    { intros r v. rewrite E, csc_entry, HC by assumption. cbn. tauto. }
    assert (Hstr : forall r, structural (m_structure m) r i <-> exists v, In (i, r, v) Ci).
    { intros r. rewrite E, csc_structural by assumption. split; intros [v H]; exists v.
      - apply HC. cbn. auto.
      - apply HC in H. apply H. }
    rewrite !nlast_map.
    assert (Hfail : forall d, (d =? nzero) = true -> ~ solvable i ->
      exists ok b', (if d =? nzero then Done (false, b) else
        let! x := oget b i in
        let coeff := x / d in
        let! b := oset b i coeff in
        let! b := back_substitute i coeff (combine (map snd Ci) (map cell_row Ci)) b in
        Done (true, b)) = Done (ok, b') /\ length b' = n /\ (ok = true <-> solvable i) /\
      (ok = true -> exists v x, pivot m i v /\ nth_error b i = Some x /\
         let c := x / v in
         nth_error b' i = Some c /\
         (forall r y w, (r < i)%nat -> nth_error b r = Some y -> entry m r i w ->
            nth_error b' r = Some (y - c * w)) /\
         (forall r, (i < r)%nat \/ ((r < i)%nat /\ ~ structural (m_structure m) r i) ->
            nth_error b' r = nth_error b r))).
    { intros d Hd Hn. exists false, b. rewrite Hd. split; [reflexivity|]. split; [exact Hb|].
      split; [split; [discriminate|intros; contradiction]|discriminate]. }
    destruct (nlast Ci) as [t|] eqn:El; cbn [option_map].
    2:{ cbn [obind]. apply nlast_none in El. apply Hfail; [exact zero_zero|].
        intros (v & [Hv _] & _). apply Hent in Hv. rewrite El in Hv. destruct Hv. }
    destruct (@exists_last _ Ci) as (C0 & t' & EC).
    { intros E0. rewrite E0 in El. discriminate. }
    rewrite EC, nlast_snoc in El. injection El as ->.
    assert (Ht : In t Ci) by (rewrite EC; apply in_or_app; right; now left).
    assert (Hlast : forall u, In u Ci -> (cell_row u <= cell_row t)%nat).
    { intros u Hu. rewrite EC in Hu, Hs. apply strongly_snoc in Hs. destruct Hs as [_ G].
      rewrite Forall_forall in G. apply in_app_or in Hu. destruct Hu as [Hu|[<-|[]]]; [|lia].
      specialize (G u Hu). unfold row_lt in G. lia. }
    destruct t as [[c r] v]. cbn [cell_row fst snd] in *.
    assert (Ec : c = i) by (apply HC in Ht; apply Ht). subst c.
    destruct (Nat.eqb_spec r i) as [->|Hr].
    2:{ cbn [obind]. apply Hfail; [exact zero_zero|].
        intros (w & [Hw Hbelow] & _). apply Hent in Hw. specialize (Hlast _ Hw). cbn in Hlast.
        specialize (Hbelow r (proj2 (Hstr r) (ex_intro _ v Ht))). lia. }
    cbn [ounwrap obind].
    assert (Hp : pivot m i v).
    { split; [now apply Hent|]. intros r Hr. apply Hstr in Hr. destruct Hr as [w Hr]. apply (Hlast _ Hr). }
    destruct (v =? nzero) eqn:Ev.
    { specialize (Hfail v Ev). rewrite Ev in Hfail. apply Hfail.
      intros (w & [Hw _] & Hnz). assert (w = v) by (eapply entry_fun; [exact W|exact Hw|apply Hp]). congruence. }
    destruct (nth_error_ex b i) as [x Hx]; [lia|].
    unfold oget. rewrite Hx. cbn [obind]. rewrite oset_ok by lia. cbn [obind].
    set (q := x / v).
    assert (Ecomb : combine (map snd Ci) (map cell_row Ci) = map (fun t => (snd t, cell_row t)) Ci).
    { clear. induction Ci as [|t l IH]; cbn; congruence. }
    rewrite Ecomb.
    destruct (back_substitute_ok i q Ci (lset b i q) Hs) as (b' & E' & El & E1 & E2).
    { apply Forall_forall. intros t Ht'. apply HC in Ht'. destruct Ht' as [Ht' _].
      pose proof (ce_bound _ _ _ C) as B. rewrite Forall_forall in B. specialize (B t Ht').
      rewrite lset_length. lia. }
    rewrite E'. cbn [obind]. rewrite lset_length in El.
    exists true, b'. split; [reflexivity|]. split; [lia|]. split.
    { split; [intros _; exists v; auto|reflexivity]. }
    intros _. exists v, x. split; [exact Hp|]. split; [reflexivity|]. cbn zeta. fold q. split; [|split].
    - rewrite E2 by (left; lia). apply nth_error_lset_eq. lia.
    - intros r y w Hr Hy Hw. apply Hent in Hw.
      apply (E1 (i, r, w) y Hw); [exact Hr|]. cbn. rewrite nth_error_lset_ne by lia. exact Hy.
    - intros r Hr. rewrite E2.
      + apply nth_error_lset_ne. lia.
      + destruct Hr as [Hr|[Hr Hn]]; [left; lia|]. right. intros [[c r'] w] Hu Er. cbn in Er. subst r'.
        apply Hn. apply Hstr. exists w. assert (c = i) by (apply HC in Hu; apply Hu). now subst c.
  Qed.

  Lemma rev_seq_S k : rev (seq 0 (S k)) = k :: rev (seq 0 k).
  Proof. rewrite seq_S, rev_app_distr. reflexivity. Qed.

  (** It never panics, and it succeeds exactly when every diagonal entry can be
      divided by and has nothing below it. *)
  Lemma triangular_rounds_ok k b :
    (k <= n)%nat -> length b = n ->
    exists ok b', triangular_rounds m (rev (seq 0 k)) b = Done (ok, b') /\ length b' = n /\
      (ok = true <-> forall i, (i < k)%nat -> solvable i).
  Proof.
    revert b; induction k as [|k IH]; intros b Hk Hb.
    - exists true, b. cbn. repeat split; auto. intros; lia.
    - rewrite rev_seq_S. cbn [triangular_rounds].
      destruct (triangular_step_ok k b) as (ok & b1 & E & H1 & H2 & _); [lia|exact Hb|].
      rewrite E. cbn [obind]. destruct ok.
      + destruct (IH b1) as (ok & b2 & E2 & H3 & H4); [lia|exact H1|].
        exists ok, b2. split; [exact E2|]. split; [exact H3|]. rewrite H4. split.
        * intros H i Hi. destruct (Nat.eq_dec i k) as [->|]; [now apply H2|]. apply H. lia.
        * intros H i Hi. apply H. lia.
      + exists false, b1. split; [reflexivity|]. split; [exact H1|]. split; [discriminate|].
        intros H. apply H2. apply H. lia.
  Qed.

  Lemma triangular_ok b :
    length b = n ->
    exists ok b', solve_upper_triangular m b = Done (ok, b') /\ length b' = n /\
      (ok = true <-> forall i, (i < n)%nat -> solvable i).
  Proof.
    intros Hb. unfold solve_upper_triangular. fold n. rewrite Hb, Nat.eqb_refl. cbn [oassert obind].
    now apply triangular_rounds_ok.
  Qed.
End Generic.

(** In exact arithmetic, the answer solves the system. *)
Lemma rsum_app f l l' : rsum f (l ++ l') = (rsum f l + rsum f l')%R.
Proof. unfold rsum. induction l as [|x l IH]; cbn [fold_right app]; [lra|]. rewrite IH. lra. Qed.

Lemma rsum_ext f g l : (forall j, In j l -> f j = g j) -> rsum f l = rsum g l.
Proof.
  induction l as [|x l IH]; intros H; [reflexivity|]. cbn. rewrite (H x) by now left. f_equal.
  apply IH. intros; apply H; now right.
Qed.

Lemma rsum_zero f l : (forall j, In j l -> f j = 0%R) -> rsum f l = 0%R.
Proof.
  induction l as [|x l IH]; intros H; [reflexivity|]. cbn. rewrite (H x) by now left.
  unfold rsum in IH. rewrite IH; [lra|]. intros; apply H; now right.
Qed.

Section Real.
  Variable m : matrix R.
  Hypothesis W : well_formed_matrix m.
  Hypothesis Hsq : s_nrows (m_structure m) <= s_ncols (m_structure m).
  Let n := s_nrows (m_structure m).
  Variable A : nat -> nat -> R.
  Hypothesis HA : represents 0%R m A.

  Local Open Scope R_scope.

  Lemma element_entry i j v : entry m i j v -> A i j = v.
  Proof.
    intros H. destruct (HA i j) as [H'|[_ H']].
    - eapply entry_fun; eauto.
    - exfalso. apply H'. destruct H as (k & Hk & _). now exists k.
  Qed.

  Lemma element_none i j : ~ structural (m_structure m) i j -> A i j = 0.
  Proof.
    intros H. destruct (HA i j) as [(k & Hk & _)|[H' _]]; [|exact H'].
    exfalso. apply H. now exists k.
  Qed.

  Lemma solvable_R i : solvable m i <-> A i i <> 0 /\ forall r, structural (m_structure m) r i -> (r <= i)%nat.
  Proof.
    unfold solvable, pivot. split.
    - intros (v & [Hv Hb] & Hnz). split; [|exact Hb]. rewrite (element_entry _ _ _ Hv).
      cbn in Hnz. intros ->. unfold Reqb in Hnz. destruct (Req_EM_T 0 0); congruence.
    - intros [Hnz Hb]. exists (A i i). split; [split; [|exact Hb]|].
      + destruct (HA i i) as [H|[H _]]; [exact H|congruence].
      + cbn. unfold Reqb. destruct (Req_EM_T (A i i) 0); congruence.
  Qed.

  Lemma zero_zero_R : neqb (nzero : R) nzero = true.
  Proof. cbn. unfold Reqb. destruct (Req_EM_T 0 0); congruence. Qed.

  Lemma nth_of (l : list R) i x : nth_error l i = Some x -> nth i l 0 = x.
  Proof. apply nth_error_nth. Qed.

  Lemma of_nth (l : list R) i : (i < length l)%nat -> nth_error l i = Some (nth i l 0).
  Proof. apply nth_error_nth'. Qed.

  (** After the columns from [k] up are done: [x] from [k] on is final, and the
      rest is what is left of the right-hand side. *)
  Lemma triangular_rounds_solve k b b' :
    (k <= n)%nat -> length b = n ->
    triangular_rounds m (rev (seq 0 k)) b = Done (true, b') ->
    length b' = n /\
    (forall r, (k <= r)%nat -> nth r b' 0 = nth r b 0) /\
    (forall r, (r < k)%nat -> rsum (fun j => A r j * nth j b' 0) (seq 0 k) = nth r b 0).
  Proof.
    revert b; induction k as [|k IH]; intros b Hk Hb H.
    - cbn in H. injection H as <-. repeat split; auto. intros; lia.
    - rewrite rev_seq_S in H. cbn [triangular_rounds] in H.
      destruct (triangular_step_ok m W Hsq zero_zero_R k b) as (ok & b1 & E & H1 & H2 & H3); [fold n; lia|exact Hb|].
      rewrite E in H. cbn [obind] in H. destruct ok; [|discriminate].
      destruct (H3 eq_refl) as (v & x & Hp & Hx & Hk1 & Hlow & Hrest). cbn zeta in *.
      destruct (IH b1) as (L1 & L2 & L3); [lia|exact H1|exact H|].
      assert (Sv : solvable m k) by (now apply H2). apply solvable_R in Sv. destruct Sv as [Hnz Hbelow].
      assert (Ev : A k k = v) by (apply element_entry, Hp).
      split; [exact L1|]. split.
      + intros r Hr. rewrite L2 by lia.
        assert (Er : nth_error b1 r = nth_error b r) by (apply Hrest; left; lia).
        destruct (le_lt_dec n r) as [Hn|Hn].
        * rewrite !nth_overflow by lia. reflexivity.
        * rewrite !of_nth in Er by lia. congruence.
      + assert (Exk : nth k b' 0 = x / v).
        { rewrite L2 by lia. now apply nth_of. }
        intros r Hr. rewrite seq_S, rsum_app. cbn [rsum fold_right Nat.add]. rewrite Exk.
        destruct (Nat.eq_dec r k) as [->|Hrk].
        * (* the diagonal row: everything to the left of the diagonal is zero *)
          assert (Ez : rsum (fun j => A k j * nth j b' 0) (seq 0 k) = 0).
          { apply rsum_zero. intros j Hj. apply in_seq in Hj.
            assert (Sj : solvable m j).
            { destruct (triangular_rounds_ok m W Hsq zero_zero_R k b1) as (ok & b2 & E2 & _ & G); [fold n; lia|exact H1|].
              rewrite H in E2. injection E2 as <- <-. apply G; [reflexivity|lia]. }
            apply solvable_R in Sj. destruct Sj as [_ Sj].
            rewrite (element_none k j); [lra|]. intros Hst. specialize (Sj k Hst). lia. }
          rewrite Ez, Ev, (nth_of _ _ _ Hx). rewrite Ev in Hnz. field. exact Hnz.
        * rewrite L3 by lia.
          destruct (HA r k) as [Hent|[Hz Hns]].
          -- rewrite (nth_of b1 r (nth r b 0 - x / v * A r k)); [lra|].
             apply (Hlow r (nth r b 0) (A r k)); [lia|apply of_nth; lia|exact Hent].
          -- rewrite Hz.
             assert (Er : nth_error b1 r = nth_error b r) by (apply Hrest; right; split; [lia|exact Hns]).
             rewrite !of_nth in Er by lia. injection Er as ->. lra.
  Qed.

  Lemma triangular_solve b x :
    solve_upper_triangular m b = Done (true, x) ->
    length x = n /\
    forall i, (i < n)%nat -> rsum (fun j => A i j * nth j x 0) (seq 0 n) = nth i b 0.
  Proof.
    unfold solve_upper_triangular. fold n. intros H. apply obind_done in H.
    destruct H as (u & H1 & H2). apply oassert_done, Nat.eqb_eq in H1.
    destruct (triangular_rounds_solve n b x (le_n _) (eq_sym H1) H2) as (G1 & _ & G3). auto.
  Qed.
End Real.
