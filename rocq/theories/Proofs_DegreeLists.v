(** The lists of columns of equal score, and the hash buckets kept in their heads *)
From Coq Require Import List Arith ZArith Lia Bool Permutation.
From Verif Require Import Outcome Lib ModelColamd Spec_Colamd Proofs_Zlist Proofs_Order Proofs_View.
Import ListNotations.
Local Open Scope Z_scope.

(** A doubly linked list from [prev] to [nxt] *)
Fixpoint linked (f3 f4 : Z -> Z) (prev : Z) (l : list Z) (nxt : Z) : Prop :=
  match l with
  | [] => True
  | c :: l => f3 c = prev /\ f4 c = hd nxt l /\ linked f3 f4 c l nxt
  end.
(** A singly linked list *)
Fixpoint chained (f4 : Z -> Z) (l : list Z) : Prop :=
  match l with
  | [] => True
  | c :: l => f4 c = hd (-1) l /\ chained f4 l
  end.

Lemma hd_app {A} (d : A) l l' : hd d (l ++ l') = hd (hd d l') l.
Proof. now destruct l. Qed.
Lemma linked_app f3 f4 : forall l prev l' nxt,
  linked f3 f4 prev (l ++ l') nxt <-> linked f3 f4 prev l (hd nxt l') /\ linked f3 f4 (last l prev) l' nxt.
Proof.
  induction l as [|c l IH]; intros prev l' nxt; [cbn; tauto|]. cbn [app linked]. rewrite hd_app, IH.
  assert (E : last (c :: l) prev = last l c).
  { destruct l as [|x l]; [reflexivity|]. clear IH. cbn [last]. revert x. induction l as [|y l IH]; intros x; [reflexivity|]. exact (IH y). }
  rewrite E. tauto.
Qed.
Lemma linked_ext f3 f4 g3 g4 l : forall prev nxt, (forall c, In c l -> g3 c = f3 c /\ g4 c = f4 c) ->
  linked f3 f4 prev l nxt -> linked g3 g4 prev l nxt.
Proof.
  induction l as [|c l IH]; intros prev nxt H L; [exact I|]. cbn in *. destruct L as (L1 & L2 & L3).
  destruct (H c (or_introl eq_refl)) as (-> & ->). split; [auto|split; auto].
Qed.
Lemma chained_ext f4 g4 l : (forall c, In c l -> g4 c = f4 c) -> chained f4 l -> chained g4 l.
Proof.
  induction l as [|c l IH]; intros H L; [exact I|]. cbn in *. destruct L as (L1 & L2). rewrite H by auto. split; auto.
Qed.
Lemma linked_prev f3 f4 prev prev' c l nxt : linked f3 f4 prev (c :: l) nxt -> ~ In c l ->
  linked (fupd f3 c prev') f4 prev' (c :: l) nxt.
Proof.
  cbn. intros (H1 & H2 & H3) N. rewrite fupd_same. split; auto. split; auto. eapply linked_ext; [|exact H3].
  intros x Hx. rewrite fupd_other by congruence. auto.
Qed.

Definition dupd (D : Z -> list Z) (s : Z) (l : list Z) : Z -> list Z := fun t => if s =? t then l else D t.
Definition nowhere : Z -> list Z := fun _ => [].

Section Lists.
  Variables nr n na : Z.
  Hypothesis n0 : 0 <= n.

  (** [D s] is the list of score [s] and [B s] the bucket of hash [s]. *)
  Record lists (f3 f4 fh : Z -> Z) (D B : Z -> list Z) : Prop := {
    ls_head : forall s, 0 <= s <= n -> fh s = match D s with [] => - (hd (-1) (B s) + 2) | c :: _ => c end;
    ls_linked : forall s, 0 <= s <= n -> linked f3 f4 (hd (-1) (B s)) (D s) (-1);
    ls_chain : forall s, 0 <= s <= n -> chained f4 (B s);
    ls_D : forall s c, In c (D s) -> 0 <= c < n;
    ls_B : forall s c, In c (B s) -> 0 <= c < n;
    ls_ND : forall s, NoDup (D s);
    ls_NB : forall s, NoDup (B s);
    ls_one : forall s t c, In c (D s) -> In c (D t) -> s = t;
    ls_oneB : forall s t c, In c (B s) -> In c (B t) -> s = t;
    ls_apart : forall s t c, In c (D s) -> In c (B t) -> False
  }.

  (** Only the entries of the listed columns matter. *)
  Lemma lists_ext f3 f4 fh D B g3 g4 gh : lists f3 f4 fh D B ->
    (forall s c, In c (D s) -> g3 c = f3 c) -> (forall s c, In c (D s) \/ In c (B s) -> g4 c = f4 c) ->
    (forall s, 0 <= s <= n -> gh s = fh s) -> lists g3 g4 gh D B.
  Proof.
    intros [] E3 E4 Eh. constructor; auto.
    - intros s Hs. rewrite Eh; auto.
    - intros s Hs. eapply linked_ext; [|apply ls_linked0; auto]. intros c Hc. split; eauto.
    - intros s Hs. eapply chained_ext; [|apply ls_chain0; auto]. intros c Hc. eauto.
  Qed.
  Lemma lists_dext f3 f4 fh D B D' B' : lists f3 f4 fh D B -> (forall s, D' s = D s) -> (forall s, B' s = B s) -> lists f3 f4 fh D' B'.
  Proof.
    intros [] E E'. constructor; intros *; rewrite ?E, ?E'; auto.
    - apply ls_D0.
    - apply ls_B0.
    - apply ls_one0.
    - apply ls_oneB0.
    - apply ls_apart0.
  Qed.

  Definition up_lists v f3 f4 fh := View (rs v) (rl v) (r1 v) (r2 v) (cs v) (cl v) (c1 v) (c2 v) f3 f4 (me v) fh.
  Notation rep := (rep nr n na).

  Ltac cases := unfold fupd in *; repeat match goal with |- context [?a =? ?b] => destruct (Z.eqb_spec a b); subst end.

  (** Lines 795-801 and 1051-1057 *)
  Lemma link_ok w v D c s : rep w v -> lists (c3 v) (c4 v) (he v) D nowhere -> 0 <= c < n -> 0 <= s <= n ->
    (forall t, ~ In c (D t)) ->
    exists w' f3 f4 fh, link_column w c s = Done w' /\ rep w' (up_lists v f3 f4 fh) /\ lists f3 f4 fh (dupd D s (c :: D s)) nowhere.
  Proof.
    intros R L Hc Hs F. unfold link_column. rewrite (head_at_ok _ _ _ _ _ _ R) by auto. cbn [obind].
    destruct (set_col_ok _ _ _ w v c (fun col => cl_set_shared4 (he v s) (cl_set_shared3 empty_link col))
                (up_c4 (up_c3 v (fupd (c3 v) c empty_link)) (fupd (c4 v) c (he v s))) R) as (w1 & E1 & R1).
    { lia. } { intros j. unfold vcol. cbn. cases; reflexivity. } { reflexivity. } { reflexivity. } { reflexivity. }
    rewrite E1. cbn [obind].
    pose proof (ls_head _ _ _ _ _ L s Hs) as Hh. cbn [nowhere hd] in Hh.
    pose proof (ls_linked _ _ _ _ _ L s Hs) as Hl. cbn [nowhere hd] in Hl.
    pose proof (ls_ND _ _ _ _ _ L s) as Nd.
    unfold empty_link in *.
    assert (G : forall f3 f4, f3 c = -1 -> f4 c = hd (-1) (D s) -> linked f3 f4 c (D s) (-1) ->
      (forall t x, t <> s -> In x (D t) -> f3 x = c3 v x /\ f4 x = c4 v x) ->
      lists f3 f4 (fupd (he v) s c) (dupd D s (c :: D s)) nowhere).
    { intros f3 f4 G3 G4 Gl Go. constructor; unfold dupd, nowhere.
      - intros t Ht. unfold fupd. destruct (Z.eqb_spec s t); [reflexivity|]. exact (ls_head _ _ _ _ _ L t Ht).
      - intros t Ht. destruct (Z.eqb_spec s t) as [<-|Nt]; [cbn; auto|].
        eapply linked_ext; [|exact (ls_linked _ _ _ _ _ L t Ht)]. intros x Hx. apply (Go t); auto.
      - intros. exact I.
      - intros t x. destruct (Z.eqb_spec s t) as [<-|]; [intros [<-|Hx]; [auto|exact (ls_D _ _ _ _ _ L s x Hx)]|exact (ls_D _ _ _ _ _ L t x)].
      - intros t x [].
      - intros t. destruct (Z.eqb_spec s t) as [<-|]; [|exact (ls_ND _ _ _ _ _ L t)]. constructor; auto.
      - intros. constructor.
      - intros t t' x. destruct (Z.eqb_spec s t) as [<-|], (Z.eqb_spec s t') as [<-|]; auto.
        + intros [<-|Hx] Hx'; [destruct (F t'); auto|exact (ls_one _ _ _ _ _ L _ _ _ Hx Hx')].
        + intros Hx' [<-|Hx]; [destruct (F t); auto|exact (ls_one _ _ _ _ _ L _ _ _ Hx' Hx)].
        + apply (ls_one _ _ _ _ _ L).
      - intros t t' x [].
      - intros t t' x _ []. }
    destruct (D s) as [|d l] eqn:ED.
    - rewrite Hh. cbn [nowhere hd]. change (- (-1 + 2)) with (-1). change (-1 =? -1) with true. cbn [negb obind]. rewrite Hh in R1.
      destruct (set_head_ok _ _ _ w1 _ s c R1 Hs) as (w2 & E2 & R2). rewrite E2. vsimpl R2.
      exists w2. do 3 eexists. split; [reflexivity|]. vsimpl R2. split; [exact R2|]. apply G.
      + apply fupd_same.
      + rewrite fupd_same. reflexivity.
      + exact I.
      + intros t x Nt Hx. rewrite !fupd_other by (intros ->; exact (F t Hx)). auto.
    - rewrite Hh. assert (Hd : 0 <= d < n) by (apply (ls_D _ _ _ _ _ L s); rewrite ED; now left). rewrite Hh in R1.
      destruct (Z.eqb_spec d (-1)); [lia|]. cbn [negb].
      destruct (set_c3 _ _ _ w1 _ d c R1) as (w2 & E2 & R2); [lia|]. rewrite E2. cbn [obind].
      destruct (set_head_ok _ _ _ w2 _ s c R2 Hs) as (w3 & E3 & R3). rewrite E3. vsimpl R3.
      assert (Ncd : c <> d) by (intros ->; apply (F s); rewrite ED; now left).
      exists w3. do 3 eexists. split; [reflexivity|]. split; [exact R3|]. apply G.
      + rewrite fupd_other by congruence. apply fupd_same.
      + rewrite fupd_same. reflexivity.
      + cbn [linked]. cbn [linked] in Hl. destruct Hl as (H1 & H2 & H3). rewrite fupd_same. rewrite fupd_other by auto.
        split; auto. split; auto. eapply linked_ext; [|exact H3]. intros x Hx.
        rewrite !fupd_other; auto.
        * intros ->. apply (F s). rewrite ED. now right.
        * intros ->. apply (F s). rewrite ED. now right.
        * intros ->. inversion Nd; auto.
      + intros t x Nt Hx. assert (c <> x) by (intros ->; exact (F t Hx)).
        assert (d <> x). { intros ->. apply Nt. apply (ls_one _ _ _ _ _ L t s x); auto. rewrite ED. now left. }
        rewrite !fupd_other by auto. auto.
  Qed.

  Lemma last_in {A} (d : A) l x l' : l = l' ++ [x] -> last l d = x.
  Proof. intros ->. apply last_last. Qed.

  (** Lines 943-950 *)
  Lemma unlink_ok w v D c l1 l2 : rep w v -> lists (c3 v) (c4 v) (he v) D nowhere -> 0 <= c2 v c <= n ->
    D (c2 v c) = l1 ++ c :: l2 ->
    exists w' f3 f4 fh, unlink_column w c = Done w' /\ rep w' (up_lists v f3 f4 fh) /\ lists f3 f4 fh (dupd D (c2 v c) (l1 ++ l2)) nowhere.
  Proof.
    intros R L Hs ED. set (s := c2 v c) in *.
    assert (Hc : 0 <= c < n). { apply (ls_D _ _ _ _ _ L s). rewrite ED. apply in_app_iff. right. now left. }
    unfold unlink_column. rewrite (col_at_ok _ _ _ _ _ _ R) by lia. cbn [obind vcol cl_shared2 cl_shared3 cl_shared4]. fold s.
    pose proof (ls_linked _ _ _ _ _ L s Hs) as Hl. cbn [nowhere hd] in Hl. rewrite ED in Hl. apply linked_app in Hl.
    destruct Hl as (Hl1 & H3 & H4 & Hl2). cbn [hd] in Hl1.
    pose proof (ls_ND _ _ _ _ _ L s) as Nd. rewrite ED in Nd.
    assert (Nc : ~ In c (l1 ++ l2)) by now apply NoDup_remove_2.
    assert (Nd' : NoDup (l1 ++ l2)) by now apply NoDup_remove_1 in Nd.
    assert (I2 : forall x, In x (l1 ++ l2) -> 0 <= x < n).
    { intros x Hx. apply (ls_D _ _ _ _ _ L s). rewrite ED. apply in_app_iff in Hx. apply in_app_iff. cbn. tauto. }
    assert (Ot : forall t x, t <> s -> In x (D t) -> ~ In x (l1 ++ c :: l2)).
    { intros t x Nt Hx Hx'. apply Nt. apply (ls_one _ _ _ _ _ L t s x); auto. now rewrite ED. }
    assert (G : forall f3 f4 fh, (fh s = hd (-1) (l1 ++ l2)) -> (forall t, t <> s -> fh t = he v t) ->
      linked f3 f4 (-1) (l1 ++ l2) (-1) -> (forall t x, t <> s -> In x (D t) -> f3 x = c3 v x /\ f4 x = c4 v x) ->
      lists f3 f4 fh (dupd D s (l1 ++ l2)) nowhere).
    { intros f3 f4 fh Gh Gh' Gl Go. constructor; unfold dupd.
      - intros t Ht. destruct (Z.eqb_spec s t) as [<-|].
        + rewrite Gh. destruct (l1 ++ l2); reflexivity.
        + rewrite Gh' by auto. exact (ls_head _ _ _ _ _ L t Ht).
      - intros t Ht. destruct (Z.eqb_spec s t) as [<-|Nt]; [exact Gl|].
        eapply linked_ext; [|exact (ls_linked _ _ _ _ _ L t Ht)]. intros x Hx. apply (Go t); auto.
      - intros. exact I.
      - intros t x. destruct (Z.eqb_spec s t) as [<-|]; [apply I2|exact (ls_D _ _ _ _ _ L t x)].
      - intros t x [].
      - intros t. destruct (Z.eqb_spec s t) as [<-|]; [auto|exact (ls_ND _ _ _ _ _ L t)].
      - intros. constructor.
      - intros t t' x. destruct (Z.eqb_spec s t) as [<-|Nt], (Z.eqb_spec s t') as [<-|Nt']; auto.
        + intros Hx Hx'. destruct (Ot t' x); auto. apply in_app_iff in Hx. apply in_app_iff. cbn. tauto.
        + intros Hx' Hx. destruct (Ot t x); auto. apply in_app_iff in Hx. apply in_app_iff. cbn. tauto.
        + apply (ls_one _ _ _ _ _ L).
      - intros t t' x [].
      - intros t t' x _ []. }
    rewrite H3, H4. unfold empty_link.
    assert (Hin : forall x, In x l2 -> In x (l1 ++ c :: l2)) by (intros; apply in_app_iff; cbn; auto).
    destruct l1 as [|q l1'] eqn:E1 using rev_ind.
    - cbn [last]. change (-1 =? -1) with true. cbv iota.
      destruct (set_head_ok _ _ _ w v s (hd (-1) l2) R Hs) as (w1 & Ew1 & R1). rewrite Ew1. cbn [obind].
      destruct l2 as [|d l2]; cbn [hd].
      + change (-1 =? -1) with true. cbn [negb]. exists w1. do 3 eexists. split; [reflexivity|]. vsimpl R1. split; [exact R1|].
        apply G; auto. { apply fupd_same. } { intros t Nt. apply fupd_other. congruence. }
      + assert (Hd : 0 <= d < n) by (apply I2; cbn; auto). destruct (Z.eqb_spec d (-1)); [lia|]. cbn [negb].
        destruct (set_c3 _ _ _ w1 _ d (-1) R1) as (w2 & Ew2 & R2); [lia|]. rewrite Ew2. vsimpl R2.
        exists w2. do 3 eexists. split; [reflexivity|]. vsimpl R2. split; [exact R2|]. apply G; auto.
        * apply fupd_same.
        * intros t Nt. apply fupd_other. congruence.
        * cbn [app]. eapply linked_prev; [exact Hl2|]. cbn in Nd'. inversion Nd'; auto.
        * intros t x Nt Hx. rewrite fupd_other; auto. intros ->. apply (Ot t x Nt Hx). apply Hin. now left.
    - clear IHl1'. rewrite last_last in *. assert (Hq : 0 <= q < n) by (apply I2; rewrite !in_app_iff; cbn; auto).
      destruct (Z.eqb_spec q (-1)); [lia|]. cbv iota.
      destruct (set_c4 _ _ _ w v q (hd (-1) l2) R) as (w1 & Ew1 & R1); [lia|]. rewrite Ew1. cbn [obind].
      apply linked_app in Hl1. destruct Hl1 as (Hl1 & Hq3 & Hq4 & _). cbn [hd] in Hq4.
      rewrite <- app_assoc in Nd', Nc. cbn [app] in Nd', Nc.
      assert (Nq : ~ In q (l1' ++ l2)) by now apply NoDup_remove_2.
      assert (Hh : hd (-1) ((l1' ++ [q]) ++ l2) = he v s).
      { rewrite (ls_head _ _ _ _ _ L s Hs), ED. destruct l1'; reflexivity. }
      assert (L1 : linked (c3 v) (fupd (c4 v) q (hd (-1) l2)) (-1) l1' q).
      { eapply linked_ext; [|exact Hl1]. intros x Hx. rewrite fupd_other; auto. intros ->. apply Nq. apply in_app_iff. auto. }
      destruct l2 as [|d l2]; cbn [hd] in *.
      + change (-1 =? -1) with true. cbn [negb]. exists w1. do 3 eexists. split; [reflexivity|]. vsimpl R1. split; [exact R1|].
        apply G; auto.
        * rewrite app_nil_r. apply linked_app. split; [exact L1|]. cbn. rewrite fupd_same. auto.
        * intros t x Nt Hx. rewrite fupd_other; auto. intros ->. apply (Ot t x Nt Hx). rewrite !in_app_iff. cbn. auto.
      + assert (Hd : 0 <= d < n) by (apply I2; rewrite !in_app_iff; cbn; auto). destruct (Z.eqb_spec d (-1)); [lia|]. cbn [negb].
        destruct (set_c3 _ _ _ w1 _ d q R1) as (w2 & Ew2 & R2); [lia|]. rewrite Ew2. vsimpl R2.
        exists w2. do 3 eexists. split; [reflexivity|]. vsimpl R2. split; [exact R2|].
        assert (Ndl : ~ In d l1' /\ d <> q /\ ~ In d l2).
        { apply NoDup_remove_2 in Nd' as X. change (q :: d :: l2) with ([q] ++ d :: l2) in Nd'. rewrite app_assoc in Nd'.
          apply NoDup_remove_2 in Nd'. rewrite !in_app_iff in Nd'. cbn in Nd'. intuition. }
        destruct Ndl as (Nd1 & Nd2 & Nd3).
        apply G; auto.
        * rewrite <- app_assoc. cbn [app]. apply linked_app. cbn [hd]. split.
          { eapply linked_ext; [|exact L1]. intros x Hx. rewrite fupd_other; auto. intros ->. contradiction. }
          cbn [linked hd]. rewrite fupd_other by auto. rewrite !fupd_same. split; [exact Hq3|]. split; [auto|]. split; [auto|].
          cbn [linked] in Hl2. destruct Hl2 as (_ & Hd4 & Hl2). rewrite fupd_other by congruence. split; [exact Hd4|].
          eapply linked_ext; [|exact Hl2]. intros x Hx. rewrite !fupd_other; auto.
          -- intros ->. apply Nq. rewrite in_app_iff. cbn. auto.
          -- intros ->. contradiction.
        * intros t x Nt Hx. pose proof (Ot t x Nt Hx) as O. rewrite !in_app_iff in O. cbn in O. rewrite !fupd_other; auto; intros ->; tauto.
  Qed.

  Lemma hd_range (l : list Z) : (forall x, In x l -> 0 <= x < n) -> -1 <= hd (-1) l < n.
  Proof. destruct l; cbn; [lia|]. intros H. specialize (H z (or_introl eq_refl)). lia. Qed.

  (** Lines 1009-1019 *)
  Lemma hash_ok w v D B c h : rep w v -> lists (c3 v) (c4 v) (he v) D B -> 0 <= c < n -> 0 <= h <= n ->
    (forall t, ~ In c (D t)) -> (forall t, ~ In c (B t)) -> (forall t x, In x (B t) -> c3 v x = t) ->
    exists w' f3 f4 fh, hash_column w c h = Done w' /\ rep w' (up_lists v f3 f4 fh) /\ lists f3 f4 fh D (dupd B h (c :: B h)) /\
      (forall t x, In x (dupd B h (c :: B h) t) -> f3 x = t).
  Proof.
    intros R L Hc Hh F FB B3. unfold hash_column. rewrite (head_at_ok _ _ _ _ _ _ R) by auto. cbn [obind].
    pose proof (ls_head _ _ _ _ _ L h Hh) as Eh. pose proof (ls_linked _ _ _ _ _ L h Hh) as Hl.
    pose proof (hd_range _ (ls_B _ _ _ _ _ L h)) as Hb.
    assert (G : forall f3 f4 fh, f3 c = h -> f4 c = hd (-1) (B h) -> fh h = match D h with [] => - (c + 2) | d :: _ => d end ->
      (forall t, t <> h -> fh t = he v t) -> linked f3 f4 c (D h) (-1) ->
      (forall t x, t <> h -> In x (D t) -> f3 x = c3 v x) ->
      (forall t x, In x (B t) -> f3 x = c3 v x) ->
      (forall t x, In x (D t) \/ In x (B t) -> f4 x = c4 v x) ->
      lists f3 f4 fh D (dupd B h (c :: B h)) /\ (forall t x, In x (dupd B h (c :: B h) t) -> f3 x = t)).
    { intros f3 f4 fh G3 G4 Gh Gh' Gl Go3 Gb3 Go4. split; [constructor|]; unfold dupd.
      - intros t Ht. destruct (Z.eqb_spec h t) as [<-|]; [exact Gh|]. rewrite Gh' by auto. exact (ls_head _ _ _ _ _ L t Ht).
      - intros t Ht. destruct (Z.eqb_spec h t) as [<-|Nt]; [exact Gl|].
        eapply linked_ext; [|exact (ls_linked _ _ _ _ _ L t Ht)]. intros x Hx. split; eauto.
      - intros t Ht. destruct (Z.eqb_spec h t) as [<-|Nt].
        + cbn. split; auto. eapply chained_ext; [|exact (ls_chain _ _ _ _ _ L h Ht)]. eauto.
        + eapply chained_ext; [|exact (ls_chain _ _ _ _ _ L t Ht)]. eauto.
      - intros t x. apply (ls_D _ _ _ _ _ L).
      - intros t x. destruct (Z.eqb_spec h t) as [<-|]; [intros [<-|Hx]; [auto|exact (ls_B _ _ _ _ _ L h x Hx)]|exact (ls_B _ _ _ _ _ L t x)].
      - intros t. apply (ls_ND _ _ _ _ _ L).
      - intros t. destruct (Z.eqb_spec h t) as [<-|]; [|exact (ls_NB _ _ _ _ _ L t)]. constructor; [apply FB|exact (ls_NB _ _ _ _ _ L h)].
      - intros t t' x. apply (ls_one _ _ _ _ _ L).
      - intros t t' x. destruct (Z.eqb_spec h t) as [<-|], (Z.eqb_spec h t') as [<-|]; auto.
        + intros [<-|Hx] Hx'; [destruct (FB t'); auto|exact (ls_oneB _ _ _ _ _ L _ _ _ Hx Hx')].
        + intros Hx' [<-|Hx]; [destruct (FB t); auto|exact (ls_oneB _ _ _ _ _ L _ _ _ Hx' Hx)].
        + apply (ls_oneB _ _ _ _ _ L).
      - intros t t' x Hx. destruct (Z.eqb_spec h t') as [<-|].
        + intros [<-|Hx']; [exact (F t Hx)|exact (ls_apart _ _ _ _ _ L _ _ _ Hx Hx')].
        + apply (ls_apart _ _ _ _ _ L t t' x Hx).
      - intros t x. destruct (Z.eqb_spec h t) as [<-|].
        + intros [<-|Hx]; auto. rewrite (Gb3 h) by auto. auto.
        + intros Hx. rewrite (Gb3 t) by auto. auto. }
    unfold empty_link. destruct (D h) as [|d l] eqn:ED.
    - rewrite Eh. destruct (Z.ltb_spec (-1) (- (hd (-1) (B h) + 2))); [lia|].
      destruct (set_head_ok _ _ _ w v h (- (c + 2)) R Hh) as (w1 & E1 & R1). rewrite E1. cbn [obind].
      destruct (set_col_ok _ _ _ w1 _ c (fun x => cl_set_shared3 h (cl_set_shared4 (- (- (hd (-1) (B h) + 2) + 2)) x))
        (up_c4 (up_c3 (up_he v (fupd (he v) h (- (c + 2)))) (fupd (c3 v) c h)) (fupd (c4 v) c (hd (-1) (B h)))) R1) as (w2 & E2 & R2).
      { lia. } { intros j. unfold vcol. cbn. replace (- (- (hd (-1) (B h) + 2) + 2)) with (hd (-1) (B h)) by lia. cases; reflexivity. }
      { reflexivity. } { reflexivity. } { reflexivity. }
      rewrite E2. exists w2. do 3 eexists. split; [reflexivity|]. vsimpl R2. split; [exact R2|]. apply G.
      + apply fupd_same.
      + apply fupd_same.
      + rewrite fupd_same. reflexivity.
      + intros t Nt. apply fupd_other. congruence.
      + exact I.
      + intros t x Nt Hx. apply fupd_other. intros ->. exact (F t Hx).
      + intros t x Hx. apply fupd_other. intros ->. exact (FB t Hx).
      + intros t x Hx. apply fupd_other. intros ->. destruct Hx as [Hx|Hx]; [exact (F t Hx)|exact (FB t Hx)].
    - rewrite Eh. assert (Hd : 0 <= d < n) by (apply (ls_D _ _ _ _ _ L h); rewrite ED; now left).
      destruct (Z.ltb_spec (-1) d); [|lia]. rewrite (col_at_ok _ _ _ _ _ _ R) by lia. cbn [obind].
      destruct (set_c3 _ _ _ w v d c R) as (w1 & E1 & R1); [lia|]. rewrite E1. cbn [obind vcol cl_shared3].
      destruct (set_col_ok _ _ _ w1 _ c (fun x => cl_set_shared3 h (cl_set_shared4 (c3 v d) x))
        (up_c4 (up_c3 v (fupd (fupd (c3 v) d c) c h)) (fupd (c4 v) c (c3 v d))) R1) as (w2 & E2 & R2).
      { lia. } { intros j. unfold vcol. cbn. cases; reflexivity. } { reflexivity. } { reflexivity. } { reflexivity. }
      rewrite E2. assert (Ncd : c <> d) by (intros ->; apply (F h); rewrite ED; now left).
      exists w2. do 3 eexists. split; [reflexivity|]. vsimpl R2. split; [exact R2|]. pose proof Hl as (H3 & H4 & _).
      pose proof (ls_ND _ _ _ _ _ L h) as Nd. rewrite ED in Nd. apply G.
      + apply fupd_same.
      + rewrite fupd_same. exact H3.
      + exact Eh.
      + reflexivity.
      + eapply linked_ext; [|eapply (linked_prev _ _ _ c); [exact Hl|inversion Nd; auto]]. intros x Hx.
        assert (c <> x) by (intros ->; apply (F h); rewrite ED; exact Hx).
        rewrite !(fupd_other _ c) by auto. auto.
      + intros t x Nt Hx. rewrite !fupd_other; auto.
        * intros ->. apply Nt. apply (ls_one _ _ _ _ _ L t h x); auto. rewrite ED. now left.
        * intros ->. exact (F t Hx).
      + intros t x Hx. rewrite !fupd_other; auto.
        * intros ->. apply (ls_apart _ _ _ _ _ L h t x); auto. rewrite ED. now left.
        * intros ->. exact (FB t Hx).
      + intros t x Hx. apply fupd_other. intros ->. destruct Hx as [Hx|Hx]; [exact (F t Hx)|exact (FB t Hx)].
  Qed.
End Lists.
