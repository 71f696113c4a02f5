(** Hopcroft-Karp returns a maximum matching, without panicking and within the
    model's step budget. *)
From Coq Require Import List Arith NArith Lia Bool.
From Verif Require Import Outcome Lib ModelGraph ModelMatching Spec_Matching.
Import ListNotations.

(** ** Association lists *)
Lemma aget_aset {V} (m : amap V) k v k' :
  aget (aset m k v) k' = if Nat.eqb k' k then Some v else aget m k'.
Proof.
  induction m as [|[j w] m IH]; simpl.
  - destruct (Nat.eqb k' k); auto.
  - destruct (Nat.eqb_spec k j) as [->|n]; simpl.
    + destruct (Nat.eqb k' j); auto.
    + rewrite IH. destruct (Nat.eqb_spec k' j) as [->|n']; auto.
      destruct (Nat.eqb_spec j k); congruence.
Qed.
Lemma aget_in {V} (m : amap V) k v : aget m k = Some v -> In (k, v) m.
Proof.
  induction m as [|[j w] m IH]; simpl; [discriminate|].
  destruct (Nat.eqb_spec k j) as [->|]; auto. intros H; inversion H; auto.
Qed.
Lemma in_aget {V} (m : amap V) k v : NoDup (map fst m) -> In (k, v) m -> aget m k = Some v.
Proof.
  induction m as [|[j w] m IH]; simpl; [contradiction|]. intros N [E|H]; inversion N; subst.
  - inversion E; subst. now rewrite Nat.eqb_refl.
  - destruct (Nat.eqb_spec k j) as [->|]; auto. exfalso. apply H2.
    apply in_map_iff. exists (j, v); auto.
Qed.
Lemma aget_none {V} (m : amap V) k : aget m k = None <-> ~ In k (map fst m).
Proof.
  induction m as [|[j w] m IH]; simpl; [tauto|].
  destruct (Nat.eqb_spec k j) as [->|n]; [split; [discriminate|tauto]|].
  rewrite IH. intuition congruence.
Qed.
Lemma aget_key {V} (m : amap V) k : In k (map fst m) -> exists v, aget m k = Some v.
Proof.
  intros H. destruct (aget m k) eqn:E; eauto. apply aget_none in E. contradiction.
Qed.
Lemma aset_keys {V} (m : amap V) k v :
  map fst (aset m k v) = if existsb (Nat.eqb k) (map fst m) then map fst m else map fst m ++ [k].
Proof.
  induction m as [|[j w] m IH]; simpl; auto.
  destruct (Nat.eqb_spec k j) as [->|n]; simpl; auto. rewrite IH.
  destruct (existsb (Nat.eqb k) (map fst m)); auto.
Qed.
Lemma aset_keys_in {V} (m : amap V) k v : In k (map fst m) -> map fst (aset m k v) = map fst m.
Proof. intros H. rewrite aset_keys. apply existsb_eqb in H. now rewrite H. Qed.
Lemma nodup_snoc {A} (l : list A) x : NoDup l -> ~ In x l -> NoDup (l ++ [x]).
Proof.
  intros N H. induction l; simpl; constructor; simpl; auto; inversion N; subst.
  - intros Hin. apply in_app_iff in Hin. simpl in Hin. destruct Hin as [|[|[]]]; auto.
    subst. apply H; simpl; auto.
  - apply IHl; auto. intro; apply H; simpl; auto.
Qed.
Lemma aset_nodup {V} (m : amap V) k v : NoDup (map fst m) -> NoDup (map fst (aset m k v)).
Proof.
  intros N. rewrite aset_keys. destruct (existsb (Nat.eqb k) (map fst m)) eqn:E; auto.
  apply existsb_eqb_false in E. now apply nodup_snoc.
Qed.
Lemma amem_true {V} (m : amap V) k : amem m k = true <-> exists v, aget m k = Some v.
Proof. unfold amem. destruct (aget m k); split; eauto; [discriminate|intros []; discriminate]. Qed.

Lemma filter_length_lt {A} (f g : A -> bool) l x :
  (forall y, In y l -> f y = true -> g y = true) -> In x l -> f x = false -> g x = true ->
  length (filter f l) < length (filter g l).
Proof.
  induction l as [|y l IH]; simpl; [contradiction|]. intros H [->|Hin] Hf Hg.
  - rewrite Hf, Hg; simpl. apply Nat.lt_succ_r.
    clear IH. assert (H' : forall y, In y l -> f y = true -> g y = true) by auto. clear H.
    induction l as [|z l IH]; simpl; auto.
    destruct (f z) eqn:E; [rewrite (H' z) by (simpl; auto); simpl|destruct (g z); simpl].
    + apply le_n_S, IH. intros; apply H'; simpl; auto.
    + apply le_S, IH. intros; apply H'; simpl; auto.
    + apply IH. intros; apply H'; simpl; auto.
  - specialize (IH (fun y Hy => H y (or_intror Hy)) Hin Hf Hg).
    destruct (f y) eqn:E; [rewrite (H y) by auto; simpl; lia|destruct (g y); simpl; lia].
Qed.
Lemma filter_length_le {A} (f g : A -> bool) l :
  (forall y, In y l -> f y = true -> g y = true) -> length (filter f l) <= length (filter g l).
Proof.
  induction l as [|z l IH]; simpl; auto. intros H.
  destruct (f z) eqn:E; [rewrite (H z) by auto; simpl|destruct (g z); simpl]; auto.
  apply le_n_S; auto.
Qed.

Lemma filter_len {A} (f : A -> bool) l : length (filter f l) <= length l.
Proof. induction l; simpl; auto. destruct (f a); simpl; lia. Qed.

Section HK.
  Variable g : bigraph.
  Hypothesis Hnd : NoDup (vertices_a g).
  Hypothesis Hnb : forall a, In a (vertices_a g) -> exists bs, neighbors_of_a g a = Some bs.
  Notation A := (vertices_a g).

  (** A consistent pair of maps *)
  Record valid (m : matching) : Prop := {
    v_edge : forall a b, aget (a_to_b m) a = Some b -> edge g a b;
    v_ab : forall a b, aget (a_to_b m) a = Some b -> aget (b_to_a m) b = Some a;
    v_ba : forall a b, aget (b_to_a m) b = Some a -> aget (a_to_b m) a = Some b;
    v_nda : NoDup (map fst (a_to_b m));
    v_ndb : NoDup (map fst (b_to_a m))
  }.
  Lemma valid_new : valid matching_new.
  Proof. constructor; simpl; try discriminate; constructor. Qed.

  Definition keys_ok (d : amap dist) : Prop := map fst d = A.
  Lemma keys_get d a : keys_ok d -> In a A -> exists x, aget d a = Some x.
  Proof. intros H Ha. apply aget_key. now rewrite H. Qed.
  Lemma keys_set d a x : keys_ok d -> In a A -> keys_ok (aset d a x).
  Proof. intros H Ha. unfold keys_ok. rewrite aset_keys_in; auto. now rewrite H. Qed.

  (** *** Breadth-first search *)
  Definition unset (d : amap dist) : nat :=
    length (filter (fun a => match aget d a with Some None => true | _ => false end) A).

  Record bfs_inv (m : matching) (d : amap dist) (dummy : dist) : Prop := {
    b_keys : keys_ok d;
    b_zero : forall a, In a A -> is_a_matched m a = false -> aget d a = Some (Some 0);
    b_zero' : forall a, aget d a = Some (Some 0) -> is_a_matched m a = false;
    b_parent : forall a j, aget d a = Some (Some (S j)) ->
      exists v b, aget d v = Some (Some j) /\ edge g v b /\ aget (b_to_a m) b = Some a;
    b_dummy : forall D, dummy = Some D ->
      exists v b j, D = S j /\ aget d v = Some (Some j) /\ edge g v b /\ aget (b_to_a m) b = None
  }.
  (** Everything next to [a] is matched to a vertex with a distance. *)
  Definition explored (m : matching) (d : amap dist) (a : nat) : Prop :=
    forall b, edge g a b -> exists a', aget (b_to_a m) b = Some a' /\ exists j, aget d a' = Some (Some j).
  Definition grown (d d' : amap dist) : Prop :=
    forall a j, aget d a = Some (Some j) -> aget d' a = Some (Some j).

  Lemma explored_grown m d d' a : grown d d' -> explored m d a -> explored m d' a.
  Proof. intros G H b Hb. destruct (H b Hb) as (a' & Ha & j & Hj). eauto 6. Qed.

  Lemma bfs_neighbors_spec m bs a j : valid m -> In a A -> neighbors_of_a g a = Some bs ->
    forall pre post d dummy q, bs = pre ++ post ->
    bfs_inv m d dummy -> aget d a = Some (Some j) ->
    (forall x, In x q -> In x A /\ exists i, aget d x = Some (Some i)) ->
    exists d' dummy' q', bfs_neighbors m (Some (S j)) post (d, dummy, q) = Done (d', dummy', q') /\
      bfs_inv m d' dummy' /\ grown d d' /\
      (dummy' = None -> dummy = None) /\
      (exists q'', q' = q ++ q'') /\
      (forall x, In x q' -> In x A /\ exists i, aget d' x = Some (Some i)) /\
      length q' + unset d' <= length q + unset d /\
      (forall x i, aget d' x = Some (Some i) -> aget d x = Some (Some i) \/ In x q') /\
      (dummy' = None -> forall b, In b post ->
         exists a', aget (b_to_a m) b = Some a' /\ exists i, aget d' a' = Some (Some i)).
  Proof.
    intros V Ha Hbs pre post. revert pre. unfold bfs_neighbors.
    induction post as [|b post IH]; intros pre d dummy q E I Hd Hq; cbn [ofold].
    - exists d, dummy, q. split; [reflexivity|]. split; [auto|]. split; [intros ? ?; auto|].
      split; [auto|]. split; [exists []; now rewrite app_nil_r|]. repeat (split; [solve [auto]|]).
      intros _ b [].
    - assert (Eb : edge g a b).
      { split; auto. exists bs. split; auto. rewrite E. apply in_app_iff; simpl; auto. }
      assert (E' : bs = (pre ++ [b]) ++ post) by (now rewrite <- app_assoc).
      unfold get_matched_for_b. destruct (aget (b_to_a m) b) as [a'|] eqn:Eba.
      + assert (Ha' : In a' A) by exact (proj1 (v_edge _ V _ _ (v_ba _ V _ _ Eba))).
        destruct (keys_get _ _ (b_keys _ _ _ I) Ha') as [x Hx]. rewrite Hx; cbn [ounwrap obind].
        destruct x as [i|].
        * destruct (IH _ d dummy q E' I Hd Hq) as (d' & u' & q' & H1 & H2 & H3 & H4 & H5 & H6 & H7 & H8 & H9).
          exists d', u', q'. split; [exact H1|]. repeat (split; [solve [auto]|]).
          intros Hu b' [<-|Hb']; auto. exists a'. split; auto. exists i. auto.
        * (* a' newly reached *)
          assert (G0 : grown d (aset d a' (Some (S j)))).
          { intros y i Hy. rewrite aget_aset. destruct (Nat.eqb_spec y a') as [->|]; auto. congruence. }
          destruct (IH _ (aset d a' (Some (S j))) dummy (q ++ [a']) E')
            as (d' & u' & q' & H1 & H2 & H3 & H4 & H5 & H6 & H7 & H8 & H9).
          -- constructor.
             ++ apply keys_set; auto. apply (b_keys _ _ _ I).
             ++ intros y Hy Hm. rewrite aget_aset. destruct (Nat.eqb_spec y a') as [->|].
                ** rewrite (b_zero _ _ _ I _ Hy Hm) in Hx. discriminate.
                ** apply (b_zero _ _ _ I); auto.
             ++ intros y. rewrite aget_aset. destruct (Nat.eqb_spec y a') as [->|]; [discriminate|].
                apply (b_zero' _ _ _ I).
             ++ intros y i. rewrite aget_aset. destruct (Nat.eqb_spec y a') as [->|].
                ** intros Hi; inversion Hi; subst. exists a, b. split; auto.
                ** intros Hi. destruct (b_parent _ _ _ I _ _ Hi) as (v & b' & P1 & P2 & P3).
                   exists v, b'. split; auto.
             ++ intros D HD. destruct (b_dummy _ _ _ I _ HD) as (v & b' & i & P1 & P2 & P3 & P4).
                exists v, b', i. split; auto.
          -- apply G0; auto.
          -- intros y Hy. apply in_app_iff in Hy. destruct Hy as [Hy|[<-|[]]].
             ++ destruct (Hq _ Hy) as (Q1 & i & Q2). split; auto. exists i. auto.
             ++ split; auto. exists (S j). rewrite aget_aset, Nat.eqb_refl. auto.
          -- exists d', u', q'. split; [exact H1|]. split; auto.
             split. { intros y i Hy. apply H3, G0, Hy. }
             split; auto. split. { destruct H5 as [q'' ->]. exists ([a'] ++ q''). now rewrite app_assoc. }
             split; auto. split.
             { rewrite app_length in H7; simpl in H7.
               assert (unset (aset d a' (Some (S j))) < unset d).
               { apply filter_length_lt with (x := a'); auto.
                 - intros y _. rewrite aget_aset. destruct (Nat.eqb_spec y a') as [->|]; auto; discriminate.
                 - now rewrite aget_aset, Nat.eqb_refl.
                 - now rewrite Hx. }
               lia. }
             split.
             { intros y i Hy. destruct (H8 _ _ Hy) as [Hy'|]; auto.
               rewrite aget_aset in Hy'. destruct (Nat.eqb_spec y a') as [->|]; auto.
               right. destruct H5 as [q'' ->]. apply in_app_iff. left. apply in_app_iff. simpl; auto. }
             intros Hu b' [<-|Hb']; auto. exists a'. split; auto. exists (S j). apply H3.
             rewrite aget_aset, Nat.eqb_refl. auto.
      + cbn [obind].
        set (u := match dummy with None => Some (S j) | Some _ => dummy end).
        destruct (IH _ d u q E') as (d' & u' & q' & H1 & H2 & H3 & H4 & H5 & H6 & H7 & H8 & H9); auto.
        * constructor; try apply I. intros D HD. unfold u in HD. destruct dummy as [D'|].
          -- apply (b_dummy _ _ _ I _ HD).
          -- inversion HD; subst. exists a, b, j. auto.
        * exists d', u', q'. split; [exact H1|].
          assert (u <> None) by (unfold u; destruct dummy; discriminate).
          repeat (split; [solve [auto]|]).
          split. { intros Hu. apply H4 in Hu. contradiction. }
          repeat (split; [solve [auto]|]).
          intros Hu. apply H4 in Hu. contradiction.
  Qed.

  Lemma bfs_loop_spec m : valid m -> forall fuel d dummy q,
    bfs_inv m d dummy ->
    (forall x, In x q -> In x A /\ exists i, aget d x = Some (Some i)) ->
    (dummy = None -> forall x i, aget d x = Some (Some i) -> In x q \/ explored m d x) ->
    length q + unset d < fuel ->
    exists d' dummy', bfs_loop fuel g m (d, dummy, q) = Done (d', dummy') /\
      bfs_inv m d' dummy' /\
      (dummy' = None -> forall x i, aget d' x = Some (Some i) -> explored m d' x).
  Proof.
    intros V fuel. induction fuel as [|fuel IH]; [lia|]. intros d dummy q I Hq He Hf. cbn [bfs_loop].
    destruct q as [|a q].
    - exists d, dummy. split; auto. split; auto. intros Hu x i Hx. destruct (He Hu x i Hx); auto.
      destruct H.
    - destruct (Hq a) as (Ha & j & Hj); [simpl; auto|]. rewrite Hj; cbn [ounwrap obind].
      destruct (dist_geb (Some j) dummy) eqn:Eg.
      + apply IH; auto.
        * intros x Hx. apply Hq; simpl; auto.
        * intros ->. discriminate.
        * simpl in Hf. lia.
      + destruct (Hnb a Ha) as [bs Hbs]. rewrite Hbs; cbn [ounwrap obind].
        destruct (bfs_neighbors_spec m bs a j V Ha Hbs [] bs d dummy q eq_refl I Hj)
          as (d' & u' & q' & H1 & H2 & H3 & H4 & H5 & H6 & H7 & H8 & H9).
        { intros x Hx. apply Hq; simpl; auto. }
        cbn [dist_succ option_map]. rewrite H1; cbn [obind].
        apply IH; auto.
        * intros Hu x i Hx. destruct (H8 _ _ Hx) as [Hx'|]; auto.
          destruct (He (H4 Hu) _ _ Hx') as [[<-|Hin]|Hex].
          -- right. intros b [_ (bs' & E1 & E2)]. apply H9; auto. congruence.
          -- left. destruct H5 as [q'' ->]. apply in_app_iff; auto.
          -- right. eapply explored_grown; eauto.
        * simpl in Hf. lia.
  Qed.

  Lemma bfs_spec m d0 fuel : valid m -> keys_ok d0 -> length A < fuel ->
    exists d dummy, bfs fuel g m d0 = Done (d, dummy) /\ bfs_inv m d dummy /\
      (dummy = None -> forall x i, aget d x = Some (Some i) -> explored m d x).
  Proof.
    intros V K Hf. unfold bfs.
    set (d := map (fun '(a, _) => (a, if is_a_matched m a then None else Some 0)) d0).
    assert (Hk : map fst d = A).
    { rewrite <- K. unfold d. rewrite map_map. apply map_ext. now intros []. }
    assert (Hd : forall a, In a A -> aget d a = Some (if is_a_matched m a then None else Some 0)).
    { intros a Ha. apply in_aget; [now rewrite Hk|]. rewrite <- Hk in Ha. apply in_map_iff in Ha.
      destruct Ha as ([a' x] & E & Hin). simpl in E. subst a'. unfold d in *.
      apply in_map_iff in Hin. destruct Hin as ([a' y] & E & Hin). inversion E; subst.
      apply in_map_iff. exists (a, y); auto. }
    assert (Hd' : forall a x, aget d a = Some x -> In a A).
    { intros a x Hx. apply aget_in in Hx. rewrite <- Hk. apply in_map_iff. exists (a, x); auto. }
    apply bfs_loop_spec; auto.
    - constructor; auto.
      + intros a Ha E. rewrite (Hd a Ha), E. auto.
      + intros a E. rewrite (Hd a (Hd' _ _ E)) in E. destruct (is_a_matched m a); [discriminate|auto].
      + intros a j E. rewrite (Hd a (Hd' _ _ E)) in E. destruct (is_a_matched m a); discriminate.
      + discriminate.
    - intros x Hx. apply filter_In in Hx. rewrite Hk in Hx. destruct Hx as [Hx E]. split; auto.
      exists 0. rewrite (Hd _ Hx). destruct (is_a_matched m x); [discriminate|auto].
    - intros _ x i E. left. apply filter_In. rewrite Hk. split; [eauto|].
      rewrite (Hd x (Hd' _ _ E)) in E. destruct (is_a_matched m x); [discriminate|auto].
    - rewrite Hk. unfold unset.
      assert (L : forall l, (forall a, In a l -> In a A) ->
        length (filter (fun a => negb (is_a_matched m a)) l) +
        length (filter (fun a => match aget d a with Some None => true | _ => false end) l) = length l).
      { induction l as [|a l IHl]; simpl; auto. intros Hl. specialize (IHl (fun x Hx => Hl x (or_intror Hx))).
        rewrite (Hd a) by (apply Hl; simpl; auto). destruct (is_a_matched m a); simpl; lia. }
      rewrite L; auto.
  Qed.

  (** *** Depth-first search *)
  (** Number of vertices at distance at least [k] *)
  Definition above (k : nat) (d : amap dist) : nat :=
    length (filter (fun a => match aget d a with Some (Some j) => Nat.leb k j | _ => false end) A).

  (** [m'] is [m] after an augmentation that ends by matching [a] anew; the
      old partner of [a] still points to [a]. *)
  Record augmented (d : amap dist) (k a : nat) (m m' : matching) : Prop := {
    g_a : exists b, aget (a_to_b m') a = Some b;
    g_low : forall a', (forall j, aget d a' = Some (Some j) -> j < k) -> aget (a_to_b m') a' = aget (a_to_b m) a';
    g_edge : forall a' b', aget (a_to_b m') a' = Some b' -> edge g a' b';
    g_ab : forall a' b', aget (a_to_b m') a' = Some b' -> aget (b_to_a m') b' = Some a';
    g_ba : forall a' b', aget (b_to_a m') b' = Some a' ->
       aget (a_to_b m') a' = Some b' \/ (a' = a /\ aget (a_to_b m) a = Some b');
    g_dom : forall a', is_a_matched m' a' = true <-> is_a_matched m a' = true \/ a' = a;
    g_stale : forall b, aget (a_to_b m) a = Some b ->
       aget (b_to_a m') b = Some a /\ aget (a_to_b m') a <> Some b;
    g_nda : NoDup (map fst (a_to_b m'));
    g_ndb : NoDup (map fst (b_to_a m'))
  }.

  (** What failing searches do to the distances: some entries at distance at
      least [k] are cleared. *)
  Definition cleared (k : nat) (d d' : amap dist) : Prop :=
    forall a, aget d' a = aget d a \/
      (aget d' a = Some None /\ exists j, aget d a = Some (Some j) /\ k <= j).
  Lemma cleared_refl k d : cleared k d d.
  Proof. intros a; auto. Qed.
  Lemma cleared_trans k d d' d'' : cleared k d d' -> cleared k d' d'' -> cleared k d d''.
  Proof.
    intros H1 H2 a. destruct (H2 a) as [E|[E (j & Ej & L)]].
    - rewrite E. apply H1.
    - right. split; auto. destruct (H1 a) as [E1|[E1 _]]; [|congruence].
      exists j. split; auto. congruence.
  Qed.
  Lemma cleared_weaken k k' d d' : k' <= k -> cleared k d d' -> cleared k' d d'.
  Proof.
    intros L H a. destruct (H a) as [|[E (j & Ej & Lj)]]; auto. right. split; auto.
    exists j; split; auto; lia.
  Qed.
  Lemma above_cleared k d d' k' : cleared k' d d' -> above k d' <= above k d.
  Proof.
    intros H. apply filter_length_le. intros a _. destruct (H a) as [->|[-> _]]; auto; discriminate.
  Qed.

  (** A vertex from which the layered search is hopeless, relative to the
      distances [d0] of the phase. *)
  Definition hopeless (m : matching) (dummy : dist) (d0 d : amap dist) (a j : nat) : Prop :=
    forall b, edge g a b ->
      match aget (b_to_a m) b with
      | None => dummy <> Some (S j)
      | Some a' => aget d0 a' = Some (Some (S j)) -> aget d a' = Some None
      end.
  Definition dead_ok (m : matching) (dummy : dist) (d0 d : amap dist) : Prop :=
    forall a j, aget d0 a = Some (Some j) -> aget d a = Some None -> hopeless m dummy d0 d a j.

  Lemma hopeless_cleared m dummy d0 d d' k a j :
    cleared k d d' -> hopeless m dummy d0 d a j -> hopeless m dummy d0 d' a j.
  Proof.
    intros C H b Eb. specialize (H b Eb). destruct (aget (b_to_a m) b) as [a'|]; auto.
    intros E. specialize (H E). destruct (C a') as [->|[-> _]]; auto.
  Qed.

  Lemma dist_eqb_eq d e : dist_eqb d e = true <-> d = e.
  Proof.
    destruct d, e; simpl; split; try discriminate; auto; intros H.
    - apply Nat.eqb_eq in H. congruence.
    - inversion H. apply Nat.eqb_refl.
  Qed.

  Lemma dfs_spec dummy m d0 : valid m -> forall fuel d a k,
    keys_ok d -> cleared 0 d0 d -> dead_ok m dummy d0 d ->
    In a A -> aget d a = Some (Some k) -> above k d < fuel ->
    exists m' d' found, dfs fuel g dummy m d a = Done (m', d', found) /\
      keys_ok d' /\ cleared k d d' /\
      (forall x, x <> a -> aget d x = Some (Some k) -> aget d' x = Some (Some k)) /\
      (found = true -> augmented d k a m m') /\
      (found = false -> m' = m /\ aget d' a = Some None /\ dead_ok m dummy d0 d').
  Proof.
    intros V fuel. induction fuel as [|fuel IH]; [lia|].
    intros d a k K C0 Dd Ha Hk Hf. cbn [dfs]. rewrite Hk. cbn [ounwrap obind].
    destruct (Hnb a Ha) as [bs Hbs]. rewrite Hbs. cbn [ounwrap obind dist_succ option_map].
    match goal with |- exists m' d' found, ?L bs m d = _ /\ _ => set (loop := L) end.
    assert (Hloop : forall post pre d1, bs = pre ++ post ->
      keys_ok d1 -> cleared (S k) d d1 -> dead_ok m dummy d0 d1 ->
      (forall b, In b pre -> match aget (b_to_a m) b with
         | None => dummy <> Some (S k)
         | Some a' => aget d0 a' = Some (Some (S k)) -> aget d1 a' = Some None end) ->
      exists m' d' found, loop post m d1 = Done (m', d', found) /\
      keys_ok d' /\ cleared k d d' /\
      (forall x, x <> a -> aget d x = Some (Some k) -> aget d' x = Some (Some k)) /\
      (found = true -> augmented d k a m m') /\
      (found = false -> m' = m /\ aget d' a = Some None /\ dead_ok m dummy d0 d')).
    2:{ apply (Hloop bs [] d); auto using cleared_refl. intros b []. }
    induction post as [|b post IHp]; intros pre d1 E K1 C1 D1 Hpre.
    - unfold loop; cbn. exists m, (aset d1 a None), false. split; auto.
      split; [now apply keys_set|]. assert (A1 : aget d1 a = Some (Some k)).
      { destruct (C1 a) as [->|[_ (j & Ej & L)]]; auto. rewrite Hk in Ej. inversion Ej; lia. }
      assert (C2 : cleared k d1 (aset d1 a None)).
      { intros x. rewrite aget_aset. destruct (Nat.eqb_spec x a) as [->|]; auto.
        right. split; auto. exists k; auto. }
      split. { eapply cleared_trans; [|exact C2]. eapply cleared_weaken; [|exact C1]. lia. }
      assert (Same : forall x, x <> a -> aget d x = Some (Some k) -> aget d1 x = Some (Some k)).
      { intros x _ Hx. destruct (C1 x) as [->|[_ (j & Ej & L)]]; auto. rewrite Hx in Ej; inversion Ej; lia. }
      split. { intros x Hn Hx. rewrite aget_aset. destruct (Nat.eqb_spec x a); [contradiction|auto]. }
      split; [discriminate|]. intros _. split; auto.
      split; [now rewrite aget_aset, Nat.eqb_refl|].
      intros x j Hx Hx'. destruct (Nat.eq_dec x a) as [->|n].
      + assert (j = k).
        { destruct (C0 a) as [E0|[E0 _]]; congruence. }
        subst j. intros b [_ (bs' & E1 & E2)]. assert (Hin : In b pre).
        { rewrite app_nil_r in E. congruence. }
        specialize (Hpre b Hin). destruct (aget (b_to_a m) b) as [a'|]; auto.
        intros E0. specialize (Hpre E0). rewrite aget_aset. destruct (Nat.eqb a' a); auto.
      + rewrite aget_aset in Hx'. destruct (Nat.eqb_spec x a); [contradiction|].
        eapply hopeless_cleared; [exact C2|]. apply D1; auto.
    - assert (Eb : edge g a b).
      { split; auto. exists bs. split; auto. rewrite E. apply in_app_iff; simpl; auto. }
      assert (E' : bs = (pre ++ [b]) ++ post) by (now rewrite <- app_assoc).
      unfold loop. cbn. fold loop. unfold get_matched_for_b.
      destruct (aget (b_to_a m) b) as [a'|] eqn:Eba.
      + assert (Hab : aget (a_to_b m) a' = Some b) by now apply (v_ba _ V).
        assert (Ha' : In a' A) by exact (proj1 (v_edge _ V _ _ Hab)).
        destruct (keys_get _ _ K1 Ha') as [x Hx]. rewrite Hx; cbn [ounwrap obind].
        destruct (dist_eqb x (Some (S k))) eqn:Ex.
        * apply dist_eqb_eq in Ex. subst x.
          assert (Hd' : aget d a' = Some (Some (S k))).
          { destruct (C1 a') as [<-|[E1 _]]; auto. congruence. }
          assert (Hne : a' <> a) by (intros ->; rewrite Hk in Hd'; inversion Hd'; lia).
          destruct (IH d1 a' (S k)) as (m1 & d2 & found & F1 & F2 & F3 & _ & F4 & F5); auto.
          { eapply cleared_trans; [exact C0|]. eapply cleared_weaken; [|exact C1]. lia. }
          { assert (above (S k) d1 <= above (S k) d) by (eapply above_cleared; eauto).
            assert (above (S k) d < above k d).
            { apply filter_length_lt with (x := a); auto.
              - intros y _. destruct (aget d y) as [[j|]|]; try discriminate.
                intros L. apply Nat.leb_le in L. apply Nat.leb_le. lia.
              - rewrite Hk. apply Nat.leb_gt. lia.
              - rewrite Hk. apply Nat.leb_refl. }
            lia. }
          rewrite F1; cbn [obind]. destruct found.
          -- (* the alternating path through b *)
             specialize (F4 eq_refl). clear F5. exists (match_pair m1 a b), d2, true. split; auto.
             split; auto.
             split. { eapply cleared_trans; eapply cleared_weaken; [|exact C1| |exact F3]; lia. }
             split.
             { intros x _ Hx0. assert (C2 : cleared (S k) d d2) by (eapply cleared_trans; eauto).
               destruct (C2 x) as [->|[_ (j & Ej & L)]]; auto. rewrite Hx0 in Ej; inversion Ej; lia. }
             split; [|discriminate]. intros _.
             destruct (g_stale _ _ _ _ _ F4 b Hab) as [S1 S2].
             assert (La : aget (a_to_b m1) a = aget (a_to_b m) a).
             { apply (g_low _ _ _ _ _ F4). intros j Hj. destruct (C1 a) as [E1|[E1 _]]; [|congruence].
               rewrite E1, Hk in Hj. inversion Hj; lia. }
             assert (Dom : forall y, is_a_matched (match_pair m1 a b) y = true <->
                is_a_matched m y = true \/ y = a).
             { intros y. unfold is_a_matched, amem; simpl. rewrite aget_aset.
               destruct (Nat.eqb_spec y a) as [->|n]; [tauto|].
               pose proof (g_dom _ _ _ _ _ F4 y) as GD. unfold is_a_matched, amem in GD.
               rewrite GD. split; [intros [?| ->]; auto|tauto].
               left. now rewrite Hab. }
             constructor; auto; simpl.
             ++ exists b. now rewrite aget_aset, Nat.eqb_refl.
             ++ intros y Hy. rewrite aget_aset. destruct (Nat.eqb_spec y a) as [->|n].
                { specialize (Hy k Hk). lia. }
                apply (g_low _ _ _ _ _ F4). intros j Hj. apply Nat.lt_lt_succ_r, Hy.
                destruct (C1 y) as [<-|[E1 _]]; congruence.
             ++ intros y b'. rewrite aget_aset. destruct (Nat.eqb_spec y a) as [->|n].
                ** intros H; inversion H; subst; auto.
                ** apply (g_edge _ _ _ _ _ F4).
             ++ intros y b'. rewrite !aget_aset. destruct (Nat.eqb_spec y a) as [->|n].
                ** intros H; inversion H; subst. now rewrite Nat.eqb_refl.
                ** intros H. pose proof (g_ab _ _ _ _ _ F4 _ _ H) as H'.
                   destruct (Nat.eqb_spec b' b) as [->|]; auto. congruence.
             ++ intros y b'. rewrite !aget_aset. destruct (Nat.eqb_spec b' b) as [->|n].
                ** intros H; inversion H; subst. rewrite Nat.eqb_refl. auto.
                ** intros H. destruct (g_ba _ _ _ _ _ F4 _ _ H) as [H'|[-> H']].
                   --- destruct (Nat.eqb_spec y a) as [->|]; auto. right. split; auto. congruence.
                   --- congruence.
             ++ intros b0 Hb0. rewrite <- La in Hb0. pose proof (g_ab _ _ _ _ _ F4 _ _ Hb0) as Hb1.
                rewrite !aget_aset, Nat.eqb_refl. destruct (Nat.eqb_spec b0 b) as [->|]; [congruence|].
                split; auto. congruence.
             ++ apply aset_nodup, (g_nda _ _ _ _ _ F4).
             ++ apply aset_nodup, (g_ndb _ _ _ _ _ F4).
          -- destruct (F5 eq_refl) as (-> & F6 & F7).
             apply (IHp (pre ++ [b]) d2); auto.
             { eapply cleared_trans; eauto. }
             intros b' Hb'. apply in_app_iff in Hb'. destruct Hb' as [Hb'|[<-|[]]].
             ++ specialize (Hpre b' Hb'). destruct (aget (b_to_a m) b') as [a2|]; auto.
                intros E2. destruct (F3 a2) as [->|[-> _]]; auto.
             ++ now rewrite Eba.
        * apply (IHp (pre ++ [b]) d1); auto.
          intros b' Hb'. apply in_app_iff in Hb'. destruct Hb' as [Hb'|[<-|[]]]; [now apply Hpre|].
          rewrite Eba. intros E2.
          assert (C2 : cleared 0 d0 d1).
          { eapply cleared_trans; [exact C0|]. eapply cleared_weaken; [|exact C1]. lia. }
          destruct (C2 a') as [E3|[E3 _]]; auto. exfalso.
          assert (x = Some (S k)) by congruence. apply dist_eqb_eq in H. congruence.
      + destruct (dist_eqb dummy (Some (S k))) eqn:Ed.
        * exists (match_pair m a b), d1, true. split; auto. split; auto.
          split. { eapply cleared_weaken; [|exact C1]. lia. }
          split.
          { intros x _ Hx. destruct (C1 x) as [->|[_ (j & Ej & L)]]; auto.
            rewrite Hx in Ej; inversion Ej; lia. }
          split; [|discriminate]. intros _.
          constructor; simpl.
          -- exists b. now rewrite aget_aset, Nat.eqb_refl.
          -- intros y Hy. rewrite aget_aset. destruct (Nat.eqb_spec y a) as [->|n]; auto.
             specialize (Hy k Hk). lia.
          -- intros y b'. rewrite aget_aset. destruct (Nat.eqb_spec y a) as [->|n].
             ++ intros H; inversion H; subst; auto.
             ++ apply (v_edge _ V).
          -- intros y b'. rewrite !aget_aset. destruct (Nat.eqb_spec y a) as [->|n].
             ++ intros H; inversion H; subst. now rewrite Nat.eqb_refl.
             ++ intros H. apply (v_ab _ V) in H. destruct (Nat.eqb_spec b' b) as [->|]; auto. congruence.
          -- intros y b'. rewrite !aget_aset. destruct (Nat.eqb_spec b' b) as [->|n].
             ++ intros H; inversion H; subst. rewrite Nat.eqb_refl. auto.
             ++ intros H. apply (v_ba _ V) in H. destruct (Nat.eqb_spec y a) as [->|]; auto.
          -- intros y. unfold is_a_matched, amem; simpl. rewrite aget_aset.
             destruct (Nat.eqb_spec y a) as [->|n]; [tauto|]. intuition congruence.
          -- intros b0 Hb0. pose proof (v_ab _ V _ _ Hb0) as Hb1.
             rewrite !aget_aset, Nat.eqb_refl. destruct (Nat.eqb_spec b0 b) as [->|]; [congruence|].
             split; auto. congruence.
          -- apply aset_nodup, (v_nda _ V).
          -- apply aset_nodup, (v_ndb _ V).
        * apply (IHp (pre ++ [b]) d1); auto.
          intros b' Hb'. apply in_app_iff in Hb'. destruct Hb' as [Hb'|[<-|[]]]; [now apply Hpre|].
          rewrite Eba. intros E2. apply dist_eqb_eq in E2. congruence.
  Qed.

  Lemma augmented_valid d k a m m' : augmented d k a m m' -> is_a_matched m a = false -> valid m'.
  Proof.
    intros G Hm. constructor.
    - apply (g_edge _ _ _ _ _ G).
    - apply (g_ab _ _ _ _ _ G).
    - intros x b H. destruct (g_ba _ _ _ _ _ G _ _ H) as [|[-> E]]; auto.
      unfold is_a_matched, amem in Hm. now rewrite E in Hm.
    - apply (g_nda _ _ _ _ _ G).
    - apply (g_ndb _ _ _ _ _ G).
  Qed.

  (** Number of matched vertices *)
  Definition size (m : matching) : nat := length (filter (is_a_matched m) A).

  Lemma above_le k d : above k d <= length A.
  Proof.
    unfold above. apply filter_len.
  Qed.

  Lemma phase_spec fuel dummy m d : valid m -> bfs_inv m d dummy -> length A < fuel ->
    dummy <> None ->
    exists m' d', phase fuel g dummy m d = Done (m', d') /\ valid m' /\ keys_ok d' /\
      size m < size m'.
  Proof.
    intros V I Hf Hdum. unfold phase.
    match goal with |- context [ofold ?x] => set (f := x) end.
    (* along the loop: either something was matched, or all visited vertices are dead *)
    set (P := fun (pre : list nat) (st : matching * amap dist) =>
      let '(m1, d1) := st in
      valid m1 /\ keys_ok d1 /\
      (forall a, is_a_matched m a = true -> is_a_matched m1 a = true) /\
      (forall a, In a A -> is_a_matched m1 a = false -> ~ In a pre -> aget d1 a = Some (Some 0)) /\
      (size m < size m1 \/
       m1 = m /\ cleared 0 d d1 /\ dead_ok m dummy d d1 /\
       forall a, In a pre -> is_a_matched m a = false -> aget d1 a = Some None)).
    destruct (ofold_ok_prefix P f A) with (s := (m, d)) as ([m' d'] & H & H1 & H2 & H3 & H4 & H5).
    - intros pre a post [m1 d1] E (V1 & K1 & Q1 & Q2 & Q3). unfold f.
      assert (Ha : In a A) by (rewrite E; apply in_app_iff; simpl; auto).
      assert (Hna : ~ In a pre).
      { pose proof Hnd as N. rewrite E in N. apply NoDup_remove_2 in N. intro. apply N.
        apply in_app_iff; auto. }
      destruct (is_a_matched m1 a) eqn:Em.
      + exists (m1, d1). split; auto. split; auto. split; auto. split; auto. split.
        * intros x Hx Hm Hn. apply Q2; auto. intro. apply Hn, in_app_iff; auto.
        * destruct Q3 as [Q3|(-> & Q4 & Q5 & Q6)]; auto. right. split; auto. split; auto. split; auto.
          intros x Hx Hm. apply in_app_iff in Hx. destruct Hx as [Hx|[<-|[]]]; auto. congruence.
      + assert (Hk : aget d1 a = Some (Some 0)) by now apply Q2.
        (* if the phase has already matched something the dead set is irrelevant:
           start a new one *)
        assert (Hdfs : forall d0, cleared 0 d0 d1 -> dead_ok m1 dummy d0 d1 ->
          exists m2 d2 found, dfs fuel g dummy m1 d1 a = Done (m2, d2, found) /\
            keys_ok d2 /\ cleared 0 d1 d2 /\
            (forall x, x <> a -> aget d1 x = Some (Some 0) -> aget d2 x = Some (Some 0)) /\
            (found = true -> augmented d1 0 a m1 m2) /\
            (found = false -> m2 = m1 /\ aget d2 a = Some None /\ dead_ok m1 dummy d0 d2)).
        { intros d0 C0 D0. apply dfs_spec; auto. pose proof (above_le 0 d1). lia. }
        assert (Hdead : dead_ok m1 dummy d1 d1) by (intros x j E1 E2; congruence).
        assert (Hstep : exists d0, cleared 0 d0 d1 /\ dead_ok m1 dummy d0 d1 /\
                  (size m < size m1 \/ d0 = d)).
        { destruct Q3 as [Q3|(-> & Q4 & Q5 & Q6)]; [exists d1|exists d]; auto using cleared_refl. }
        destruct Hstep as (d0 & C0 & D0 & Hd0).
        destruct (Hdfs d0 C0 D0) as (m2 & d2 & found & F1 & F2 & F3 & F3' & F4 & F5).
        rewrite F1. cbn [obind]. exists (m2, d2). split; auto.
        destruct found.
        * specialize (F4 eq_refl). clear F5. unfold P.
          split; [eapply augmented_valid; eauto|]. split; auto.
          split. { intros x Hx. apply (g_dom _ _ _ _ _ F4). auto. }
          split.
          { intros x Hx Hm Hn. apply F3'.
            - intros ->. apply Hn, in_app_iff; simpl; auto.
            - apply Q2; auto.
              + destruct (is_a_matched m1 x) eqn:Ex; auto.
                assert (is_a_matched m2 x = true) by (apply (g_dom _ _ _ _ _ F4); auto). congruence.
              + intro. apply Hn, in_app_iff; auto. }
          left. assert (size m <= size m1) by (apply filter_length_le; auto).
          assert (size m1 < size m2); [|lia].
          apply filter_length_lt with (x := a); auto.
          -- intros y _ Hy. apply (g_dom _ _ _ _ _ F4). auto.
          -- apply (g_dom _ _ _ _ _ F4). auto.
        * destruct (F5 eq_refl) as (-> & F6 & F7). unfold P.
          split; auto. split; auto. split; auto.
          split.
          { intros x Hx Hm Hn. apply F3'.
            - intros ->. apply Hn, in_app_iff; simpl; auto.
            - apply Q2; auto. intro. apply Hn, in_app_iff; auto. }
          destruct Q3 as [Q3|(-> & Q4 & Q5 & Q6)]; auto.
          destruct Hd0 as [Hd0| ->]; [lia|]. right.
          split; auto. split; [eapply cleared_trans; eauto|]. split; auto.
          intros x Hx Hm. apply in_app_iff in Hx. destruct Hx as [Hx|[<-|[]]]; auto.
          specialize (Q6 x Hx Hm). destruct (F3 x) as [->|[-> _]]; auto.
    - unfold P. split; auto. split; [apply (b_keys _ _ _ I)|]. split; auto.
      split. { intros a Ha Hm _. now apply (b_zero _ _ _ I). }
      right. split; auto. split; [apply cleared_refl|]. split.
      + intros x j E1 E2. congruence.
      + intros a [].
    - rewrite H. exists m', d'. split; auto. split; auto. split; auto.
      destruct H5 as [|(-> & C & Dd & Hall)]; auto. exfalso.
      destruct dummy as [D|]; [|congruence].
      destruct (b_dummy _ _ _ I _ eq_refl) as (v & b & j & -> & Hv & Eb & Hb).
      assert (Hdie : forall j v, aget d v = Some (Some j) -> aget d' v = Some None).
      { induction j0 as [|j0 IHj]; intros w Hw.
        - apply Hall.
          + rewrite <- (b_keys _ _ _ I). apply aget_in in Hw. apply in_map_iff. exists (w, Some 0); auto.
          + now apply (b_zero' _ _ _ I).
        - destruct (b_parent _ _ _ I _ _ Hw) as (u & b' & Hu & Eu & Hb').
          specialize (Dd u j0 Hu (IHj _ Hu) b' Eu). rewrite Hb' in Dd. auto. }
      specialize (Dd v j Hv (Hdie _ _ Hv) b Eb). rewrite Hb in Dd. congruence.
  Qed.

  (** *** Koenig's argument *)
  Lemma valid_matching m : valid m -> is_matching g (a_to_b m).
  Proof.
    intros V. split; [apply (v_nda _ V)|]. split.
    - pose proof (v_nda _ V) as N.
      assert (H : forall a b, In (a, b) (a_to_b m) -> aget (b_to_a m) b = Some a).
      { intros a b Hin. apply (v_ab _ V). now apply in_aget. }
      clear V. induction (a_to_b m) as [|[a b] l IH]; simpl; constructor.
      + intros Hin. apply in_map_iff in Hin. destruct Hin as ([a' b'] & E & Hin). simpl in E. subst b'.
        simpl in N. inversion N; subst. apply H2.
        assert (aget (b_to_a m) b = Some a') by (apply H; simpl; auto).
        assert (aget (b_to_a m) b = Some a) by (apply H; simpl; auto).
        apply in_map_iff. exists (a', b). split; auto. simpl. congruence.
      + simpl in N. inversion N; subst. apply IH; auto. intros; apply H; simpl; auto.
    - intros a b Hin. apply (v_edge _ V). apply in_aget; auto. apply (v_nda _ V).
  Qed.

  Lemma size_length m : valid m -> size m = length (a_to_b m).
  Proof.
    intros V. unfold size. rewrite <- (map_length fst (a_to_b m)).
    apply Nat.le_antisymm; apply NoDup_incl_length.
    - apply NoDup_filter; auto.
    - intros a Ha. apply filter_In in Ha. destruct Ha as [_ Ha]. apply amem_true in Ha.
      destruct Ha as [b Hb]. apply aget_in in Hb. apply in_map_iff. exists (a, b); auto.
    - apply (v_nda _ V).
    - intros a Ha. apply aget_key in Ha. destruct Ha as [b Hb]. apply filter_In. split.
      + exact (proj1 (v_edge _ V _ _ Hb)).
      + apply amem_true; eauto.
  Qed.

  Lemma maximal m d : valid m -> bfs_inv m d None ->
    (forall x i, aget d x = Some (Some i) -> explored m d x) ->
    forall M', is_matching g M' -> length M' <= length (a_to_b m).
  Proof.
    intros V I Hex M' (N1 & N2 & He).
    set (inZ := fun a => match aget d a with Some (Some _) => true | _ => false end).
    (* the matched vertex charged for an edge *)
    set (f := fun ab : nat * nat =>
      if inZ (fst ab) then match aget (b_to_a m) (snd ab) with Some a => a | None => 0 end
      else fst ab).
    assert (Hf : forall a b, In (a, b) M' ->
       (inZ a = true -> aget (b_to_a m) b = Some (f (a, b))) /\ inZ (f (a, b)) = inZ a /\ exists b', aget (a_to_b m) (f (a, b)) = Some b').
    { intros a b Hin. pose proof (He _ _ Hin) as Ee. unfold f; simpl. destruct (inZ a) eqn:Ez.
      - unfold inZ in Ez. destruct (aget d a) as [[i|]|] eqn:Ea; try discriminate.
        destruct (Hex _ _ Ea b Ee) as (a' & Ha' & j & Hj). rewrite Ha'.
        split; auto. split.
        + unfold inZ. now rewrite Hj.
        + exists b. now apply (v_ba _ V).
      - split; [discriminate|]. split; auto.
        destruct (aget (a_to_b m) a) as [b'|] eqn:E; eauto. exfalso.
        assert (Hm : is_a_matched m a = false) by (unfold is_a_matched, amem; now rewrite E).
        unfold inZ in Ez. rewrite (b_zero _ _ _ I a (proj1 Ee) Hm) in Ez. discriminate. }
    rewrite <- (map_length f M'), <- (map_length fst (a_to_b m)). apply NoDup_incl_length.
    - clear He. induction M' as [|[a b] l IH]; simpl; constructor.
      + intros Hin. apply in_map_iff in Hin. destruct Hin as ([a' b'] & E & Hin).
        simpl in N1, N2. apply NoDup_cons_iff in N1, N2. destruct N1 as [X1 N1], N2 as [X2 N2].
        destruct (Hf a b) as (P1 & P2 & P3); [simpl; auto|].
        destruct (Hf a' b') as (P1' & P2' & P3'); [simpl; auto|].
        destruct (inZ a) eqn:Ez.
        * assert (Ez' : inZ a' = true) by congruence.
          assert (b = b').
          { specialize (P1 eq_refl). specialize (P1' Ez'). apply (v_ba _ V) in P1, P1'. congruence. }
          subst. apply X2. apply in_map_iff. exists (a', b'); auto.
        * assert (Ez' : inZ a' = false) by congruence. unfold f in E. simpl in E. rewrite Ez, Ez' in E.
          subst. apply X1. apply in_map_iff. exists (a, b'); auto.
      + simpl in N1, N2. apply NoDup_cons_iff in N1, N2. destruct N1 as [X1 N1], N2 as [X2 N2]. apply IH; auto.
        intros a0 b0 Hin. apply Hf. simpl; auto.
    - intros x Hx. apply in_map_iff in Hx. destruct Hx as ([a b] & <- & Hin).
      destruct (Hf a b Hin) as (_ & _ & b' & Hb'). apply aget_in in Hb'.
      apply in_map_iff. exists (f (a, b), b'); auto.
  Qed.

  Lemma size_le m : size m <= length A.
  Proof.
    unfold size. apply filter_len.
  Qed.

  Lemma phases_spec fuel : length A < fuel -> forall n m d, valid m -> keys_ok d ->
    length A - size m < n ->
    exists m', phases n fuel g m d = Done m' /\ valid m' /\ forall M', is_matching g M' -> length M' <= length (a_to_b m').
  Proof.
    intros Hf. induction n as [|n IH]; [lia|]. intros m d V K Hn. cbn [phases].
    destruct (bfs_spec m d fuel V K Hf) as (d1 & dummy & H1 & H2 & H3). rewrite H1; cbn [obind].
    destruct dummy as [D|].
    - destruct (phase_spec fuel (Some D) m d1 V H2 Hf) as (m' & d' & Q1 & Q2 & Q3 & Q4); [discriminate|].
      rewrite Q1; cbn [obind]. apply IH; auto. pose proof (size_le m'). lia.
    - exists m. split; auto. split; auto. eapply maximal; eauto.
  Qed.

  Lemma find_maximum_matching_ok :
    exists m, find_maximum_matching g = Done m /\ valid m /\ is_maximum_matching g (a_to_b m).
  Proof.
    unfold find_maximum_matching.
    destruct (phases_spec (S (S (length A))) ltac:(lia)
       (S (length A)) matching_new (map (fun a => (a, None)) A)) as (m & H1 & H2 & H3).
    - apply valid_new.
    - unfold keys_ok. rewrite map_map; simpl. apply map_id.
    - lia.
    - exists m. split; auto. split; auto. split; auto. now apply valid_matching.
  Qed.
End HK.
