(** Pearce's variant of Tarjan's algorithm finds the strongly connected
    components, each after the components it points to, without panicking. *)
From Coq Require Import List Arith NArith Lia Bool.
From Verif Require Import Outcome Lib ModelGraph ModelMatching Spec_Scc Proofs_Matching.
Import ListNotations.

Lemma reaches_trans E x y z : reaches E x y -> reaches E y z -> reaches E x z.
Proof. induction 1; auto. intros. econstructor; eauto. Qed.
Lemma reaches_one (E : nat -> nat -> Prop) x y : E x y -> reaches E x y.
Proof. intros. econstructor; eauto. constructor. Qed.

(** Setting several keys to one value *)
Definition aset_all (m : amap N) (ks : list nat) (c : N) : amap N :=
  fold_left (fun m k => aset m k c) ks m.
Lemma aget_aset_all m ks c k :
  aget (aset_all m ks c) k = if existsb (Nat.eqb k) ks then Some c else aget m k.
Proof.
  unfold aset_all. revert m. induction ks as [|x ks IH]; simpl; intros; auto.
  rewrite IH, aget_aset. destruct (existsb (Nat.eqb k) ks); [now rewrite orb_true_r|].
  rewrite orb_false_r. auto.
Qed.

Lemma pop_scc_spec vi c stk sm : forall scc root index,
  NoDup (sm ++ stk) ->
  (forall x, In x sm -> exists r, aget root x = Some r /\ (vi <= r)%N) ->
  (forall x, In x stk -> exists r, aget root x = Some r /\ (r < vi)%N) ->
  pop_scc vi c (sm ++ stk) scc root index =
  Done (stk, scc ++ sm, aset_all root sm c, (index - N.of_nat (length sm))%N).
Proof.
  induction sm as [|x sm IH]; intros scc root index N Hs Hk; cbn [app pop_scc].
  - rewrite app_nil_r. cbn [length]. rewrite N.sub_0_r. destruct stk as [|t stk]; auto.
    destruct (Hk t) as (r & Hr & L); [simpl; auto|]. cbn [pop_scc]. rewrite Hr. cbn [ounwrap obind].
    destruct (N.ltb_spec r vi); [auto|lia].
  - destruct (Hs x) as (r & Hr & L); [simpl; auto|]. rewrite Hr. cbn [ounwrap obind].
    destruct (N.ltb_spec r vi); [lia|]. simpl in N. apply NoDup_cons_iff in N. destruct N as [Hx N].
    rewrite IH; auto.
    + rewrite <- app_assoc. cbn [length app]. f_equal. f_equal. lia.
    + intros y Hy. rewrite aget_aset. destruct (Nat.eqb_spec y x) as [->|].
      * exfalso. apply Hx, in_app_iff; auto.
      * apply Hs; simpl; auto.
    + intros y Hy. rewrite aget_aset. destruct (Nat.eqb_spec y x) as [->|].
      * exfalso. apply Hx, in_app_iff; auto.
      * auto.
Qed.

Section Tarjan.
  Variable V : list nat.
  Variable neighbors : nat -> outcome (list nat).
  Definition E (x y : nat) : Prop := exists ns, neighbors x = Done ns /\ In y ns.
  Notation n := (length V).
  Hypothesis Hnb : forall x, In x V -> exists ns, neighbors x = Done ns /\ incl ns V.
  Hypothesis Hn : (N.of_nat n < 2 ^ 32)%N.
  Notation R := (reaches E).

  (** [P]: the vertices being visited; [L]: the live vertices (visited, not in
      a finished component) in the order they were discovered. *)
  Record inv (P L : list nat) (st : tstate) : Prop := {
    i_V : forall x, In x (L ++ concat (t_sccs st)) -> In x V;
    i_nd : NoDup (L ++ concat (t_sccs st));
    i_dom : forall x, aget (t_root st) x <> None <-> In x (L ++ concat (t_sccs st));
    i_idx : t_index st = N.of_nat (S (length L));
    i_c : length (t_sccs st) < n -> t_c st = N.of_nat (n - 1 - length (t_sccs st));
    i_done : forall x, In x (concat (t_sccs st)) ->
      exists r, aget (t_root st) x = Some r /\ (N.of_nat (n - length (t_sccs st)) <= r)%N;
    i_ne : forall s, In s (t_sccs st) -> s <> [];
    i_scc : forall s x y, In s (t_sccs st) -> In x s -> (In y s <-> R x y /\ R y x);
    i_closed : forall pre s post x y, t_sccs st = pre ++ s :: post -> In x s -> E x y ->
      In y (concat (s :: post));
    i_P : forall x, In x P -> In x L;
    i_stack : forall x, In x (t_stack st) <-> In x L /\ ~ In x P;
    i_snd : NoDup (t_stack st);
    i_low : forall i w r, nth_error L i = Some w -> aget (t_root st) w = Some r ->
      exists j u, r = N.of_nat (S j) /\ nth_error L j = Some u /\ j <= i /\ R w u /\
        (~ In w P -> j < i);
    i_gray : forall i j x y, In x P -> nth_error L i = Some x -> nth_error L j = Some y ->
      i <= j -> R x y;
    i_back : forall i y, nth_error L i = Some y ->
      exists j x, In x P /\ nth_error L j = Some x /\ j <= i /\ R y x;
    i_black : forall x y, In x (t_stack st) -> E x y -> In y (L ++ concat (t_sccs st))
  }.

  Lemma sccs_le P L st : inv P L st -> length (t_sccs st) <= length (concat (t_sccs st)).
  Proof.
    intros I. pose proof (i_ne _ _ _ I) as H. induction (t_sccs st) as [|s l IH]; simpl; auto.
    rewrite app_length. assert (s <> []) by (apply H; simpl; auto).
    assert (length l <= length (concat l)) by (apply IH; intros; apply H; simpl; auto).
    destruct s; [congruence|]. simpl. lia.
  Qed.
  Lemma live_le P L st : inv P L st -> length L + length (concat (t_sccs st)) <= n.
  Proof.
    intros I. rewrite <- app_length. apply NoDup_incl_length; [apply (i_nd _ _ _ I)|].
    intros x. apply (i_V _ _ _ I).
  Qed.

  Lemma nth_error_unique {A} (l : list A) i j x : NoDup l ->
    nth_error l i = Some x -> nth_error l j = Some x -> i = j.
  Proof.
    intros N H1 H2. apply (proj1 (NoDup_nth_error l) N).
    - eapply nth_error_lt; eauto.
    - congruence.
  Qed.

  Lemma done_closed P L st x y : inv P L st -> In x (concat (t_sccs st)) -> R x y ->
    In y (concat (t_sccs st)).
  Proof.
    intros I Hx HR. induction HR; auto. apply IHHR. apply in_concat in Hx.
    destruct Hx as (s & Hs & Hxs). apply in_split in Hs. destruct Hs as (pre & post & Es).
    pose proof (i_closed _ _ _ I _ _ _ _ _ Es Hxs H) as Hy. rewrite Es, concat_app.
    apply in_app_iff. auto.
  Qed.

  (** What a call of [visit v] from live vertices [L] achieves *)
  Record visited (P L : list nat) (v : nat) (st st' : tstate) : Prop := {
    vs_new : exists L2 S2 new r,
      inv P (L ++ L2) st' /\ t_stack st' = S2 ++ t_stack st /\
      (forall x, In x S2 <-> In x L2) /\ t_sccs st' = new ++ t_sccs st /\
      (forall x, In x L -> aget (t_root st') x = aget (t_root st) x) /\
      aget (t_root st') v = Some r /\
      ((L2 = [] /\ In v (concat (t_sccs st'))) \/
       (exists L3, L2 = v :: L3) /\
       forall x y j, In x L2 -> nth_error L j = Some y -> E x y -> (r <= N.of_nat (S j))%N)
  }.

  (** Entering [v] *)
  Lemma enter P L v st : inv P L st -> In v V -> aget (t_root st) v = None ->
    (forall x, In x P -> R x v) ->
    inv (v :: P) (L ++ [v])
      (TState (t_index st + 1) (t_c st) (aset (t_root st) v (t_index st)) (t_stack st) (t_sccs st)).
  Proof.
    intros I Hv Hw HP.
    assert (Hnot : ~ In v (L ++ concat (t_sccs st))).
    { intros H. apply (i_dom _ _ _ I) in H. contradiction. }
    assert (HnL : ~ In v L) by (intro; apply Hnot, in_app_iff; auto).
    constructor; simpl.
    - intros x Hx. rewrite <- app_assoc in Hx. apply in_app_iff in Hx.
      destruct Hx as [Hx|[<-|Hx]]; auto; apply (i_V _ _ _ I), in_app_iff; auto.
    - rewrite <- app_assoc. simpl. apply (proj2 (NoDup_Add (Add_app v L (concat (t_sccs st))))). split; auto. apply (i_nd _ _ _ I).
    - intros x. rewrite aget_aset, <- app_assoc. pose proof (i_dom _ _ _ I x) as D.
      rewrite !in_app_iff in *. simpl. destruct (Nat.eqb_spec x v) as [->|]; [intuition congruence|].
      rewrite D. intuition congruence.
    - rewrite (i_idx _ _ _ I), app_length. simpl. lia.
    - apply (i_c _ _ _ I).
    - intros x Hx. rewrite aget_aset. destruct (Nat.eqb_spec x v) as [->|].
      + exfalso. apply Hnot, in_app_iff; auto.
      + now apply (i_done _ _ _ I).
    - apply (i_ne _ _ _ I).
    - apply (i_scc _ _ _ I).
    - apply (i_closed _ _ _ I).
    - intros x [<-|Hx]; apply in_app_iff; simpl; auto. left. now apply (i_P _ _ _ I).
    - intros x. rewrite (i_stack _ _ _ I x), in_app_iff. simpl. split.
      + intros [H1 H2]. split; auto. intros [->|]; auto.
      + intros [[H1|[->|[]]] H2]; intuition.
    - apply (i_snd _ _ _ I).
    - intros i w r Hi Hr. rewrite aget_aset in Hr. apply nth_error_snoc in Hi.
      destruct Hi as [[Hi Hw']|[-> ->]].
      + destruct (Nat.eqb_spec w v) as [->|]; [exfalso; apply HnL; eapply nth_error_In; eauto|].
        destruct (i_low _ _ _ I _ _ _ Hw' Hr) as (j & u & Q1 & Q2 & Q3 & Q4 & Q5).
        exists j, u. split; auto. split; [now apply nth_error_app_old|]. split; auto. split; [auto|].
        intros Q. apply Q5. intro; apply Q; simpl; auto.
      + rewrite Nat.eqb_refl in Hr. inversion Hr; subst. exists (length L), v.
        split; [apply (i_idx _ _ _ I)|]. split; [apply nth_error_app_new|]. split; auto.
        split; [constructor|]. intros Q. destruct Q. simpl; auto.
    - intros i j x y Hx Hi Hj Hij. apply nth_error_snoc in Hj. apply nth_error_snoc in Hi.
      destruct Hj as [[Hj Hy]|[-> ->]].
      + destruct Hi as [[Hi Hx']|[-> ->]]; [|lia].
        destruct Hx as [<-|Hx]; [exfalso; apply HnL; eapply nth_error_In; eauto|].
        eapply (i_gray _ _ _ I); eauto.
      + destruct Hx as [<-|Hx]; [constructor|auto].
    - intros i y Hi. apply nth_error_snoc in Hi. destruct Hi as [[Hi Hy]|[-> ->]].
      + destruct (i_back _ _ _ I _ _ Hy) as (j & x & Q1 & Q2 & Q3 & Q4).
        exists j, x. split; auto. split; [now apply nth_error_app_old|]. auto.
      + exists (length L), v. split; auto. split; [apply nth_error_app_new|]. split; auto. constructor.
    - intros x y Hx Hxy. rewrite <- app_assoc. pose proof (i_black _ _ _ I _ _ Hx Hxy) as Q.
      apply in_app_iff in Q. apply in_app_iff. simpl. tauto.
  Qed.

  (** State of the loop over the neighbours of [v], after those in [pre] *)
  Definition loop_inv (P L : list nat) (v : nat) (st0 : tstate) (pre : list nat)
      (s : N * bool * tstate) : Prop :=
    let '(vi, root, st) := s in
    exists M SM new,
      inv (v :: P) (L ++ v :: M) st /\ t_stack st = SM ++ t_stack st0 /\
      (forall x, In x SM <-> In x M) /\ t_sccs st = new ++ t_sccs st0 /\
      (forall x, In x L -> aget (t_root st) x = aget (t_root st0) x) /\
      aget (t_root st) v = Some vi /\
      (root = true -> vi = N.of_nat (S (length L))) /\
      (root = false -> (vi < N.of_nat (S (length L)))%N) /\
      (forall y, In y pre -> In y ((L ++ v :: M) ++ concat (t_sccs st))) /\
      (forall x y j, In x M \/ (x = v /\ In y pre) -> nth_error L j = Some y -> E x y ->
         (vi <= N.of_nat (S j))%N).

  Lemma inv_set_root P L st v w r : inv P L st -> In v P -> aget (t_root st) w = Some r ->
    In w L -> R v w ->
    (forall i, nth_error L i = Some v -> (r <= N.of_nat (S i))%N) ->
    inv P L (TState (t_index st) (t_c st) (aset (t_root st) v r) (t_stack st) (t_sccs st)).
  Proof.
    intros I HvP Hr HwL HR Hle. assert (HvL := i_P _ _ _ I _ HvP).
    constructor; simpl; try apply I.
    - intros x. rewrite aget_aset. destruct (Nat.eqb_spec x v) as [->|]; [|apply (i_dom _ _ _ I)].
      split; [|congruence]. intros _. apply in_app_iff; auto.
    - intros x Hx. rewrite aget_aset. destruct (Nat.eqb_spec x v) as [->|]; [|now apply (i_done _ _ _ I)].
      exfalso. pose proof (i_nd _ _ _ I) as N. apply in_split in HvL. destruct HvL as (l1 & l2 & ->).
      rewrite <- app_assoc in N. simpl in N. apply NoDup_remove_2 in N. apply N.
      rewrite !in_app_iff. auto.
    - intros i x rx Hi Hx. rewrite aget_aset in Hx. destruct (Nat.eqb_spec x v) as [->|].
      + inversion Hx; subst. apply In_nth_error in HwL. destruct HwL as [k Hk].
        destruct (i_low _ _ _ I _ _ _ Hk Hr) as (j & u & -> & Q2 & Q3 & Q4 & Q5).
        exists j, u. split; auto. split; auto. split.
        * specialize (Hle i Hi). lia.
        * split; [eapply reaches_trans; eauto|]. intros; contradiction.
      + eapply (i_low _ _ _ I); eauto.
  Qed.

  Lemma nodup_app_l {A} (l m : list A) : NoDup (l ++ m) -> NoDup l.
  Proof. induction l; simpl; intros H; [constructor|]. inversion H; subst. constructor; auto.
    intro. apply H2, in_app_iff; auto. Qed.
  Lemma nodup_app_disj {A} (l m : list A) x : NoDup (l ++ m) -> In x l -> In x m -> False.
  Proof. induction l as [|a l IH]; simpl; [tauto|]. intros H H1 H2. inversion H; subst.
    destruct H1 as [->|H1]; eauto. apply H4, in_app_iff; auto. Qed.

  (** The finished component *)
  Lemma finish P L v st0 ns vi st : inv P L st0 -> In v V -> ~ In v (L ++ concat (t_sccs st0)) ->
    neighbors v = Done ns ->
    loop_inv P L v st0 ns (vi, true, st) ->
    exists st', visited P L v st0 st' /\
      (let! (stack, scc, rooti, index) :=
         pop_scc vi (t_c st) (t_stack st) [v] (t_root st) (t_index st - 1)%N in
       Done (TState index (wrapping_pred (t_c st)) (aset rooti v (t_c st)) stack (scc :: t_sccs st)))
      = Done st'.
  Proof.
    intros I0 HvV HvN Hns (M & SM & new & I & ES & HSM & Enew & Hun & Hrv & Hroot & _ & Hpre & Hlow).
    specialize (Hroot eq_refl). subst vi.
    assert (NL := nodup_app_l _ _ (i_nd _ _ _ I)).
    assert (Hvpos : nth_error (L ++ v :: M) (length L) = Some v).
    { rewrite nth_error_app2, Nat.sub_diag by auto. auto. }
    assert (HMstack : forall x, In x M -> In x (t_stack st)).
    { intros x Hx. rewrite ES. apply in_app_iff. left. now apply HSM. }
    (* nothing in v :: M points below v *)
    assert (Hno : forall x y, In x (v :: M) -> E x y -> In y (v :: M) \/ In y (concat (t_sccs st))).
    { intros x y Hx Exy. assert (Hy : In y ((L ++ v :: M) ++ concat (t_sccs st))).
      { destruct Hx as [<-|Hx].
        - apply Hpre. destruct Exy as (ns' & E1 & E2). congruence.
        - eapply (i_black _ _ _ I); eauto. }
      apply in_app_iff in Hy. destruct Hy as [Hy|]; auto. apply in_app_iff in Hy.
      destruct Hy as [Hy|]; auto. exfalso. apply In_nth_error in Hy. destruct Hy as [j Hj].
      assert (N.of_nat (S (length L)) <= N.of_nat (S j))%N.
      { apply (Hlow x y j); auto. destruct Hx as [<-|Hx]; auto. right. split; auto.
        destruct Exy as (ns' & E1 & E2). congruence. }
      apply nth_error_lt in Hj. lia. }
    assert (Hstay : forall x y, R x y -> In x (v :: M) -> In y (v :: M) \/ In y (concat (t_sccs st))).
    { induction 1 as [x|x y z Exy HR IH]; auto. intros Hx. destruct (Hno _ _ Hx Exy) as [Hy|Hy]; auto.
      right. eapply done_closed; eauto. }
    assert (Hsep : forall x, In x (v :: M) -> ~ In x L /\ ~ In x (concat (t_sccs st))).
    { intros x Hx. split; intros H.
      - eapply nodup_app_disj; eauto.
      - eapply (nodup_app_disj (L ++ v :: M)); [apply (i_nd _ _ _ I)| |exact H].
        apply in_app_iff; auto. }
    assert (Hpos : forall x i, In x (v :: M) -> nth_error (L ++ v :: M) i = Some x -> length L <= i).
    { intros x i Hx Hi. destruct (Nat.lt_ge_cases i (length L)); auto.
      rewrite nth_error_app1 in Hi by auto. apply nth_error_In in Hi.
      destruct (proj1 (Hsep x Hx) Hi). }
    assert (Hup : forall y, In y (v :: M) -> R y v).
    { intros y Hy. assert (HyL : In y (L ++ v :: M)) by (apply in_app_iff; auto).
      apply In_nth_error in HyL. destruct HyL as [i Hi].
      destruct (i_back _ _ _ I _ _ Hi) as (j & x & Hx & Hj & Hji & HR).
      assert (HxvM : In x (v :: M)).
      { destruct (Hstay _ _ HR Hy) as [|Hx']; auto. exfalso.
        eapply (nodup_app_disj (L ++ v :: M)); [apply (i_nd _ _ _ I)| |exact Hx'].
        eapply nth_error_In; eauto. }
      destruct Hx as [<-|Hx]; auto. exfalso. apply (i_P _ _ _ I0) in Hx.
      destruct (proj1 (Hsep _ HxvM) Hx). }
    assert (Hdown : forall y, In y (v :: M) -> R v y).
    { intros y Hy. assert (HyL : In y (L ++ v :: M)) by (apply in_app_iff; auto).
      apply In_nth_error in HyL. destruct HyL as [i Hi].
      apply (i_gray _ _ _ I (length L) i); auto; [simpl; auto|]. eapply Hpos; eauto. }
    assert (HvS : ~ In v SM).
    { intros H. apply HSM in H. apply NoDup_remove_2 in NL. apply NL, in_app_iff; auto. }
    rewrite ES. rewrite pop_scc_spec.
    2:{ rewrite <- ES. apply (i_snd _ _ _ I). }
    2:{ intros x Hx. apply HSM in Hx. assert (HxL : In x (L ++ v :: M)) by (apply in_app_iff; simpl; auto).
        apply In_nth_error in HxL. destruct HxL as [i Hi].
        destruct (aget (t_root st) x) as [r|] eqn:Er.
        2:{ exfalso. apply (i_dom _ _ _ I x); auto. apply in_app_iff. left. eapply nth_error_In; eauto. }
        exists r. split; auto. destruct (i_low _ _ _ I _ _ _ Hi Er) as (j & u & -> & Q2 & Q3 & Q4 & Q5).
        assert (length L <= j); [|lia].
        apply (Hpos u); auto. destruct (Hstay x u Q4) as [|Hu]; simpl; auto. exfalso.
        eapply (nodup_app_disj (L ++ v :: M)); [apply (i_nd _ _ _ I)| |exact Hu].
        eapply nth_error_In; eauto. }
    2:{ intros x Hx. apply (i_stack _ _ _ I0) in Hx. destruct Hx as [Hx HxP].
        assert (Hx' := Hx). apply In_nth_error in Hx. destruct Hx as [i Hi].
        rewrite (Hun x Hx').
        destruct (aget (t_root st0) x) as [r|] eqn:Er.
        2:{ exfalso. apply (i_dom _ _ _ I0 x); auto. apply in_app_iff; auto. }
        exists r. split; auto. destruct (i_low _ _ _ I0 _ _ _ Hi Er) as (j & u & -> & Q2 & Q3 & Q4 & Q5).
        apply nth_error_lt in Hi. lia. }
    cbn [obind]. eexists; split; [|reflexivity].
    pose proof (live_le _ _ _ I) as HL. pose proof (sccs_le _ _ _ I) as HS.
    rewrite app_length in HL; simpl in HL.
    assert (Hc := i_c _ _ _ I ltac:(lia)).
    assert (HvM : NoDup (v :: M)).
    { revert NL. clear. induction L; simpl; auto. intros H; inversion H; auto. }
    assert (Hlen : length SM = length M).
    { apply Nat.le_antisymm; apply NoDup_incl_length.
      - pose proof (i_snd _ _ _ I) as N. rewrite ES in N. eapply nodup_app_l; eauto.
      - intros x. apply HSM.
      - now inversion HvM.
      - intros x. apply HSM. }
    assert (Hin : forall x, In x ([v] ++ SM) <-> In x (v :: M)).
    { intros x. simpl. rewrite HSM. tauto. }
    assert (Hget : forall x, aget (aset (aset_all (t_root st) SM (t_c st)) v (t_c st)) x =
       if existsb (Nat.eqb x) (v :: SM) then Some (t_c st) else aget (t_root st) x).
    { intros x. rewrite aget_aset, aget_aset_all. simpl. destruct (Nat.eqb x v); auto. }
    constructor. exists [], [], (([v] ++ SM) :: new). rewrite app_nil_r. exists (t_c st). cbn [t_root t_stack t_sccs].
    split.
    { constructor; cbn [t_root t_stack t_sccs t_index t_c].
      - intros x Hx. cbn [concat] in Hx. rewrite !in_app_iff in Hx. rewrite <- in_app_iff in Hx.
        apply (i_V _ _ _ I). rewrite !in_app_iff. rewrite in_app_iff in Hx.
        destruct Hx as [|[[Hx|Hx]|]]; auto; left; right; apply Hin; apply in_app_iff; auto.
      - cbn [concat]. pose proof (i_nd _ _ _ I) as N. rewrite <- app_assoc in N.
        eapply Permutation.Permutation_NoDup; [|exact N].
        apply Permutation.Permutation_app_head. apply Permutation.Permutation_app_tail.
        apply Permutation.NoDup_Permutation; auto.
        + simpl. constructor; auto. pose proof (i_snd _ _ _ I) as N'. rewrite ES in N'.
          eapply nodup_app_l; eauto.
        + intros x. symmetry. apply Hin.
      - intros x. rewrite Hget. destruct (existsb (Nat.eqb x) (v :: SM)) eqn:Ex.
        + split; [|congruence]. intros _. cbn [concat]. rewrite !in_app_iff.
          apply existsb_eqb in Ex. right; left. rewrite <- in_app_iff. exact Ex.
        + apply existsb_eqb_false in Ex. rewrite (i_dom _ _ _ I x). cbn [concat].
          rewrite !in_app_iff. rewrite <- (in_app_iff [v]). rewrite Hin. tauto.
      - rewrite (i_idx _ _ _ I), app_length. cbn [length]. lia.
      - intros H. rewrite Hc. unfold wrapping_pred. simpl in H.
        assert (E0 : (N.of_nat (n - 1 - length (t_sccs st)) + (2 ^ 32 - 1) =
                 N.of_nat (n - 1 - length ((([v] ++ SM)) :: t_sccs st)) + 1 * 2 ^ 32)%N).
        { cbn [length]. lia. }
        rewrite E0, N.mod_add by lia. apply N.mod_small. cbn [length]. lia.
      - intros x Hx. rewrite Hget. destruct (existsb (Nat.eqb x) (v :: SM)) eqn:Ex.
        + exists (t_c st). split; auto. rewrite Hc. cbn [length]. lia.
        + apply existsb_eqb_false in Ex. cbn [concat] in Hx. apply in_app_iff in Hx.
          destruct Hx as [Hx|Hx]; [contradiction|].
          destruct (i_done _ _ _ I x Hx) as (r & Hr & Lr). exists r. split; auto. cbn [length]. lia.
      - intros s [<-|Hs]; [discriminate|]. now apply (i_ne _ _ _ I).
      - intros s x y [<-|Hs] Hx.
        + apply Hin in Hx. rewrite Hin. split.
          * intros Hy. split; eapply reaches_trans; eauto.
          * intros [H1 H2]. destruct (Hstay x y H1 Hx) as [|Hy]; auto. exfalso.
            pose proof (done_closed _ _ _ _ _ I Hy H2) as Hx'. destruct (proj2 (Hsep _ Hx) Hx').
        + now apply (i_scc _ _ _ I).
      - intros pre s post x y Es Hx Exy. destruct pre as [|s0 pre]; cbn [app] in Es; inversion Es; subst.
        + cbn [concat]. apply in_app_iff. apply Hin in Hx. destruct (Hno _ _ Hx Exy) as [Hy|]; auto.
          left. now apply Hin.
        + eapply (i_closed _ _ _ I); eauto.
      - apply (i_P _ _ _ I0).
      - apply (i_stack _ _ _ I0).
      - apply (i_snd _ _ _ I0).
      - intros i w r Hi Hr. rewrite Hget in Hr. destruct (existsb (Nat.eqb w) (v :: SM)) eqn:Ex.
        + exfalso. apply existsb_eqb in Ex. apply Hin in Ex. apply nth_error_In in Hi.
          destruct (proj1 (Hsep _ Ex) Hi).
        + rewrite Hun in Hr by (eapply nth_error_In; eauto). eapply (i_low _ _ _ I0); eauto.
      - apply (i_gray _ _ _ I0).
      - apply (i_back _ _ _ I0).
      - intros x y Hx Exy. cbn [concat]. assert (Hy := i_black _ _ _ I0 _ _ Hx Exy).
        apply in_app_iff in Hy. apply in_app_iff. destruct Hy as [|Hy]; auto. right.
        apply in_app_iff. right. rewrite Enew, concat_app. apply in_app_iff; auto. }
    split; auto. split; [tauto|]. split; [rewrite Enew; auto|]. split.
    { intros x Hx. rewrite Hget. destruct (existsb (Nat.eqb x) (v :: SM)) eqn:Ex; auto.
      exfalso. apply existsb_eqb in Ex. apply Hin in Ex. destruct (proj1 (Hsep _ Ex) Hx). }
    split. { rewrite Hget. simpl. now rewrite Nat.eqb_refl. }
    left. split; auto. cbn [concat]. apply in_app_iff. simpl; auto.
  Qed.

  (** A vertex that reaches an older live one is left on the stack *)
  Lemma leave P L v st0 ns vi st : inv P L st0 -> In v V -> ~ In v (L ++ concat (t_sccs st0)) ->
    neighbors v = Done ns ->
    loop_inv P L v st0 ns (vi, false, st) ->
    visited P L v st0 (TState (t_index st) (t_c st) (t_root st) (v :: t_stack st) (t_sccs st)).
  Proof.
    intros I0 HvV HvN Hns (M & SM & new & I & ES & HSM & Enew & Hun & Hrv & _ & Hroot & Hpre & Hlow).
    specialize (Hroot eq_refl).
    assert (NL := nodup_app_l _ _ (i_nd _ _ _ I)).
    assert (Hvpos : nth_error (L ++ v :: M) (length L) = Some v).
    { rewrite nth_error_app2, Nat.sub_diag by auto. auto. }
    assert (HvL : ~ In v L) by (intro; apply HvN, in_app_iff; auto).
    destruct (i_low _ _ _ I _ _ _ Hvpos Hrv) as (j & u & Ej & Hu & Hj & HR & _).
    assert (Hj' : j < length L) by lia.
    assert (Hu0 : nth_error L j = Some u) by (now rewrite nth_error_app1 in Hu).
    destruct (i_back _ _ _ I0 _ _ Hu0) as (k & x0 & Hx0 & Hk & Hkj & HRx).
    assert (HvP : ~ In v P) by (intros H; apply HvL, (i_P _ _ _ I0), H).
    constructor. exists (v :: M), (v :: SM), new, vi. cbn [t_root t_stack t_sccs].
    split.
    { constructor; cbn [t_root t_stack t_sccs t_index t_c]; try apply I.
      - intros x Hx. apply in_app_iff. left. now apply (i_P _ _ _ I0).
      - intros x. cbn [In]. rewrite (i_stack _ _ _ I x). rewrite in_app_iff. cbn [In]. split.
        + intros [<-|[H1 H2]]; [tauto|]. split; [tauto|]. intro; apply H2; auto.
        + intros [H1 H2]. destruct (Nat.eq_dec v x) as [|Hne]; auto. right. split; auto.
          intros [|]; auto.
      - constructor; [|apply (i_snd _ _ _ I)]. intros H. apply (i_stack _ _ _ I) in H.
        destruct H as [_ H]. apply H; simpl; auto.
      - intros i w r Hi Hr. destruct (i_low _ _ _ I _ _ _ Hi Hr) as (j' & u' & Q1 & Q2 & Q3 & Q4 & Q5).
        exists j', u'. split; auto. split; auto. split; auto. split; auto.
        intros HwP. destruct (Nat.eq_dec v w) as [<-|Hne].
        + assert (i = length L) by (eapply nth_error_unique; eauto). subst i.
          rewrite Hrv in Hr. inversion Hr; subst. lia.
        + apply Q5. intros [|]; auto.
      - intros i j' x y Hx. apply (i_gray _ _ _ I). simpl; auto.
      - intros i y Hi. destruct (i_back _ _ _ I _ _ Hi) as (j' & x & [<-|Hx] & Q2 & Q3 & Q4).
        + exists k, x0. split; auto. split; [rewrite nth_error_app1; [auto|lia]|].
          assert (j' = length L) by (eapply nth_error_unique; eauto). split; [lia|].
          eapply reaches_trans; [exact Q4|]. eapply reaches_trans; eauto.
        + exists j', x. auto.
      - intros x y [<-|Hx] Exy; [|eapply (i_black _ _ _ I); eauto].
        apply Hpre. destruct Exy as (ns' & E1 & E2). congruence. }
    split; [rewrite ES; auto|]. split. { intros x; cbn [In]. rewrite HSM. tauto. }
    split; auto. split; auto. split; auto. right. split; [eauto|].
    intros x y i Hx Hi Exy. apply (Hlow x y i); auto. destruct Hx as [<-|Hx]; auto.
    right. split; auto. destruct Exy as (ns' & E1 & E2). congruence.
  Qed.

  Lemma visit_spec : forall fuel P L v st, inv P L st -> In v V -> aget (t_root st) v = None ->
    (forall x, In x P -> R x v) ->
    n < length L + length (concat (t_sccs st)) + fuel ->
    exists st', visit fuel neighbors v st = Done st' /\ visited P L v st st'.
  Proof.
    induction fuel as [|fuel IH]; intros P L v st I Hv Hw HP Hf.
    { pose proof (live_le _ _ _ I). lia. }
    cbn [visit]. cbn [t_root t_stack t_sccs t_index t_c].
    destruct (Hnb v Hv) as (ns & Hns & Hincl). rewrite Hns. cbn [obind].
    assert (Hnot : ~ In v (L ++ concat (t_sccs st))).
    { intros H. apply (i_dom _ _ _ I) in H. contradiction. }
    pose proof (enter _ _ _ _ I Hv Hw HP) as I1.
    set (st1 := TState (t_index st + 1) (t_c st) (aset (t_root st) v (t_index st)) (t_stack st) (t_sccs st)) in *.
    match goal with |- context [ofold ?x ns _] => set (f := x) end.
    destruct (ofold_ok_prefix (loop_inv P L v st) f ns) with (s := (t_index st, true, st1))
      as ([[vi root] st2] & Hfold & Hinv).
    - intros pre w post [[vi root] st2] Ens HI.
      destruct HI as (M & SM & new & I2 & ES & HSM & Enew & Hun & Hrv & Hr1 & Hr2 & Hpre & Hlow).
      assert (HwV : In w V) by (apply Hincl; rewrite Ens; apply in_app_iff; simpl; auto).
      assert (Evw : E v w) by (exists ns; split; auto; rewrite Ens; apply in_app_iff; simpl; auto).
      assert (Hvpos : forall M', nth_error (L ++ v :: M') (length L) = Some v).
      { intros M'. rewrite nth_error_app2, Nat.sub_diag by auto. auto. }
      assert (Hvi : (vi <= N.of_nat (S (length L)))%N).
      { destruct root; [rewrite Hr1 by auto; lia|]. specialize (Hr2 eq_refl). lia. }
      unfold f.
      (* the state after looking at w *)
      assert (Hw' : exists st3,
        (match aget (t_root st2) w with
         | None => visit fuel neighbors w st2 | Some _ => Done st2 end) = Done st3 /\
        exists M3 SM3 new3 r,
        inv (v :: P) (L ++ v :: M3) st3 /\ t_stack st3 = SM3 ++ t_stack st /\
        (forall x, In x SM3 <-> In x M3) /\ t_sccs st3 = new3 ++ t_sccs st /\
        (forall x, In x L -> aget (t_root st3) x = aget (t_root st) x) /\
        aget (t_root st3) v = Some vi /\
        aget (t_root st3) w = Some r /\
        (forall y, In y (pre ++ [w]) -> In y ((L ++ v :: M3) ++ concat (t_sccs st3))) /\
        (forall x y j, In x M3 \/ (x = v /\ In y (pre ++ [w])) -> nth_error L j = Some y -> E x y ->
          (vi <= N.of_nat (S j))%N \/ (r <= N.of_nat (S j))%N)).
      { destruct (aget (t_root st2) w) as [r|] eqn:Ew.
        - exists st2. split; auto. exists M, SM, new, r. repeat (split; [solve [auto]|]).
          assert (HwL : In w ((L ++ v :: M) ++ concat (t_sccs st2))) by (apply (i_dom _ _ _ I2); congruence).
          split.
          + intros y Hy. apply in_app_iff in Hy. destruct Hy as [Hy|[<-|[]]]; auto.
          + intros x y j Hx Hj Exy. destruct Hx as [Hx|[-> Hy]]; [left; eapply Hlow; eauto|].
            apply in_app_iff in Hy. destruct Hy as [Hy|[<-|[]]]; [left; eapply Hlow; eauto|].
            right. assert (Hj2 : nth_error (L ++ v :: M) j = Some w).
            { rewrite nth_error_app1; auto. eapply nth_error_lt; eauto. }
            destruct (i_low _ _ _ I2 _ _ _ Hj2 Ew) as (j' & u & -> & Q2 & Q3 & _). lia.
        - destruct (IH (v :: P) (L ++ v :: M) w st2 I2 HwV Ew) as (st3 & Hvis & Hvs).
          + intros x Hx. eapply reaches_trans; [|apply reaches_one; exact Evw].
            destruct Hx as [<-|Hx]; [constructor|].
            pose proof (i_P _ _ _ I _ Hx) as HxL. apply In_nth_error in HxL. destruct HxL as [i Hi].
            eapply (i_gray _ _ _ I2) with (i := i) (j := length L); simpl; eauto.
            * rewrite nth_error_app1; auto. eapply nth_error_lt; eauto.
            * apply nth_error_lt in Hi. lia.
          + rewrite Enew, concat_app, !app_length. simpl. lia.
          + exists st3. split; auto. destruct Hvs as [(L2 & S2 & new2 & r & V1 & V2 & V3 & V4 & V5 & V6 & V7)].
            rewrite <- app_assoc in V1. cbn [app] in V1.
            exists (M ++ L2), (S2 ++ SM), (new2 ++ new), r.
            split; auto. split; [rewrite V2, ES; apply app_assoc|].
            split. { intros x. rewrite !in_app_iff, V3, HSM. tauto. }
            split; [rewrite V4, Enew; apply app_assoc|].
            split. { intros x Hx. rewrite V5; auto. apply in_app_iff; auto. }
            split. { rewrite V5; auto. apply in_app_iff; simpl; auto. }
            split; auto. split.
            * intros y Hy. apply in_app_iff in Hy. destruct Hy as [Hy|[<-|[]]].
              -- specialize (Hpre y Hy). rewrite V4, concat_app. rewrite !in_app_iff in *. cbn [In] in *.
                 rewrite !in_app_iff. tauto.
              -- apply (i_dom _ _ _ V1). congruence.
            * intros x y j Hx Hj Exy. destruct Hx as [Hx|[-> Hy]].
              -- apply in_app_iff in Hx. destruct Hx as [Hx|Hx]; [left; eapply Hlow; eauto|].
                 right. destruct V7 as [[-> _]|[_ V7]]; [destruct Hx|].
                 eapply V7; eauto. rewrite nth_error_app1; auto. eapply nth_error_lt; eauto.
              -- apply in_app_iff in Hy. destruct Hy as [Hy|[<-|[]]]; [left; eapply Hlow; eauto|].
                 exfalso. assert (In w ((L ++ v :: M) ++ concat (t_sccs st2))).
                 { rewrite !in_app_iff. left. left. eapply nth_error_In; eauto. }
                 apply (i_dom _ _ _ I2) in H. contradiction. }
      destruct Hw' as (st3 & E3 & M3 & SM3 & new3 & r & W1 & W2 & W3 & W4 & W5 & W6 & W7 & W8 & W9).
      cbv beta iota. rewrite E3. cbn [obind]. rewrite W7. cbn [ounwrap obind].
      destruct (N.ltb_spec r vi) as [Hlt|Hge].
      + eexists; split; [reflexivity|].
        assert (HwL : In w (L ++ v :: M3)).
        { assert (Hin : In w ((L ++ v :: M3) ++ concat (t_sccs st3))) by (apply (i_dom _ _ _ W1); congruence).
          apply in_app_iff in Hin. destruct Hin as [|Hin]; auto. exfalso.
          destruct (i_done _ _ _ W1 _ Hin) as (r' & Hr' & Lr). rewrite W7 in Hr'. inversion Hr'; subst r'.
          pose proof (live_le _ _ _ W1) as HL. pose proof (sccs_le _ _ _ W1).
          rewrite app_length in HL. cbn [length] in HL. lia. }
        exists M3, SM3, new3. cbn [t_root t_stack t_sccs].
        split.
        { eapply inv_set_root; eauto; [simpl; auto|now apply reaches_one|].
          intros i Hi. assert (i = length L).
          { eapply nth_error_unique; eauto. eapply nodup_app_l. apply (i_nd _ _ _ W1). }
          subst i. lia. }
        split; auto. split; auto. split; auto.
        split. { intros x Hx. rewrite aget_aset. destruct (Nat.eqb_spec x v) as [->|]; auto.
                 exfalso. apply Hnot, in_app_iff; auto. }
        split; [now rewrite aget_aset, Nat.eqb_refl|]. split; [discriminate|].
        split; [intros _; lia|]. split; auto.
        intros x y j Hx Hj Exy. destruct (W9 x y j Hx Hj Exy); lia.
      + eexists; split; [reflexivity|]. exists M3, SM3, new3.
        repeat (split; [solve [auto]|]).
        intros x y j Hx Hj Exy. destruct (W9 x y j Hx Hj Exy); lia.
    - exists [], [], []. cbn [app t_root t_stack t_sccs].
      split; auto. split; auto. split; [tauto|]. split; auto.
      split. { intros x Hx. unfold st1; cbn [t_root]. rewrite aget_aset. destruct (Nat.eqb_spec x v) as [->|]; auto.
               exfalso. apply Hnot, in_app_iff; auto. }
      split; [unfold st1; cbn [t_root]; now rewrite aget_aset, Nat.eqb_refl|].
      split; [intros _; apply (i_idx _ _ _ I)|]. split; [discriminate|]. split; [intros y []|].
      intros x y j [[]|[_ []]].
    - rewrite Hfold. cbn [obind]. destruct root.
      + destruct (finish _ _ _ _ _ _ _ I Hv Hnot Hns Hinv) as (st' & H1 & H2). exists st'. auto.
      + eexists; split; [reflexivity|]. eapply leave; eauto.
  Qed.

  Lemma tarjan_pearce_ok :
    exists sccs, tarjan_pearce V neighbors = Done sccs /\ scc_order V E sccs.
  Proof.
    unfold tarjan_pearce. rewrite to_u32_ok by auto. cbn [obind].
    match goal with |- context [ofold ?x V ?s] => set (f := x); set (st0 := s) end.
    destruct (ofold_ok_prefix (fun pre st => inv [] [] st /\
       forall x, In x pre -> In x (concat (t_sccs st))) f V) with (s := st0)
      as (st & H & I & Hall).
    - intros pre v post st EV [I Hpre]. unfold f.
      assert (Hv : In v V) by (rewrite EV; apply in_app_iff; simpl; auto).
      destruct (aget (t_root st) v) eqn:Ev.
      + exists st. split; auto. split; auto. intros x Hx. apply in_app_iff in Hx.
        destruct Hx as [|[<-|[]]]; auto. apply (i_dom _ _ _ I). congruence.
      + destruct (visit_spec (S n) [] [] v st I Hv Ev) as (st' & H1 & [H2]).
        { intros x []. } { simpl. lia. }
        destruct H2 as (L2 & S2 & new & r & V1 & V2 & V3 & V4 & V5 & V6 & V7). cbn [app] in V1.
        assert (L2 = []).
        { destruct L2 as [|x L2]; auto. destruct (i_back _ _ _ V1 0 x eq_refl) as (j & y & [] & _). }
        subst L2. exists st'. split; auto. split; auto. intros x Hx. apply in_app_iff in Hx.
        destruct Hx as [Hx|[<-|[]]].
        * rewrite V4, concat_app. apply in_app_iff. auto.
        * destruct V7 as [[_ V7]|[(L3 & V7) _]]; [auto|discriminate].
    - split; [|intros x []]. constructor; simpl; try (intros; contradiction); auto.
      + constructor.
      + intros x. split; [congruence|contradiction].
      + intros Hlt. rewrite Nat.sub_0_r. unfold wrapping_pred.
        replace (N.of_nat n + (2 ^ 32 - 1))%N with (N.of_nat (n - 1) + 1 * 2 ^ 32)%N by lia.
        rewrite N.mod_add by lia. apply N.mod_small. lia.
      + intros [|pre] s post x y H; discriminate.
      + intros x. tauto.
      + constructor.
      + intros [|i]; discriminate.
      + intros [|i]; discriminate.
    - rewrite H. cbn [obind]. eexists; split; [reflexivity|].
      assert (Hc : forall x, In x (concat (rev (t_sccs st))) <-> In x (concat (t_sccs st))).
      { intros x. rewrite !in_concat. split; intros (s & Hs & Hx); exists s; split; auto.
        - now apply in_rev. - now apply in_rev in Hs. }
      constructor.
      + eapply Permutation.Permutation_NoDup; [|exact (i_nd _ _ _ I)]. cbn [app].
        generalize (t_sccs st) as l. clear. induction l as [|s l IH]; simpl; [constructor|].
        rewrite concat_app. simpl. rewrite app_nil_r.
        eapply Permutation.perm_trans; [apply Permutation.Permutation_app_comm|].
        apply Permutation.Permutation_app_tail. auto.
      + intros x. rewrite Hc. split; auto. intros Hx. apply (i_V _ _ _ I). auto.
      + intros s Hs. apply (i_ne _ _ _ I). now apply in_rev.
      + intros s x y Hs. apply (i_scc _ _ _ I). now apply in_rev.
      + intros pre s post x y Es Hx Exy.
        assert (Es' : t_sccs st = rev post ++ s :: rev pre).
        { rewrite <- (rev_involutive (t_sccs st)), Es, rev_app_distr. simpl. now rewrite <- app_assoc. }
        pose proof (i_closed _ _ _ I _ _ _ _ _ Es' Hx Exy) as Hy.
        apply in_concat in Hy. destruct Hy as (s' & Hs' & Hy). apply in_concat. exists s'. split; auto.
        apply in_app_iff. destruct Hs' as [<-|Hs']; [right; simpl; auto|left; now apply in_rev].
  Qed.
End Tarjan.
