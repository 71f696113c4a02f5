(** Counting the entries of the columns of R: every column has one for each node
    on the paths of the elimination tree from the first columns of its rows *)
From Coq Require Import List Arith Bool Lia ZArith.
From Verif Require Import Outcome Lib ModelSparse Spec_Sparse ModelForest Spec_Forest Proofs_Forest
  ModelCholesky Proofs_Columns.
Import ListNotations.
Local Open Scope nat_scope.

Lemma depth_parent ps u a p : depth ps u a -> parent ps u p -> exists b, a = S b /\ depth ps p b.
Proof.
  intros Da Hp. inversion Da as [? Hr|? p' a' Hp' Da']; subst; [unfold root, parent in *; congruence|].
  rewrite (parent_fun _ _ _ _ Hp Hp'). eauto.
Qed.
Lemma below_inv ps u p v : parent ps u p -> below_node ps u v -> v = u \/ below_node ps p v.
Proof.
  intros Hp H. inversion H as [|? p' ? Hp' H']; subst; [left; reflexivity|]. right.
  rewrite (parent_fun _ _ _ _ Hp Hp'). exact H'.
Qed.
Lemma below_root ps u v : root ps u -> below_node ps u v -> v = u.
Proof. intros Hr H. inversion H as [|? p' ? Hp' H']; subst; [reflexivity|]. unfold root, parent in *; congruence. Qed.

Section Counts.
Context (n : nat) (ps : list (option nat)) (Ln : length ps = n) (Hf : forest ps)
  (Hup : forall u p, parent ps u p -> u < p < n)
  (pl fp : nat -> nat)
  (pl_inj : forall u v, u < n -> v < n -> pl u = pl v -> u = v)
  (interval : forall u v, u < n -> v < n -> below_node ps u v <-> fp v <= pl u <= pl v)
  (leaf : nat -> nat -> Prop)
  (Hleaf : forall f u, leaf f u -> f <> u /\ below_node ps f u /\ u < n).
Notation below := (below_node ps).

Lemma b_le u v : below u v -> u <= v.
Proof. induction 1 as [|u p v Hp _ IH]; [lia|]. apply Hup in Hp. lia. Qed.
Lemma b_eq u v : below u v -> below v u -> u = v.
Proof. intros H1 H2. apply b_le in H1. apply b_le in H2. lia. Qed.
Lemma b_range u v : below u v -> u < n -> v < n.
Proof. rewrite <- Ln. apply below_range. exact Hf. Qed.
Lemma b_place u v : below u v -> v < n -> pl u <= pl v.
Proof. intros H Hv. pose proof (b_le _ _ H). apply (interval u v) in H; lia. Qed.
Lemma leaf_lt f u : leaf f u -> f < n.
Proof. intros H. destruct (Hleaf _ _ H) as (_ & H1 & H2). apply b_le in H1. lia. Qed.

(** The nodes from [j] up to, and without, [q] *)
Lemma path_length j q : below j q -> forall a b, depth ps j a -> depth ps q b ->
  exists l, NoDup l /\ (forall k, In k l <-> below j k /\ below k q /\ k <> q) /\ a = b + length l.
Proof.
  induction 1 as [v|u p v Hp Hb IH]; intros a b Da Db.
  - exists []. split; [constructor|]. split; [|cbn; rewrite (depth_fun _ _ _ Da _ Db); lia].
    intros k. split; [intros []|]. intros (H1 & H2 & H3). apply H3. apply b_eq; assumption.
  - destruct (depth_parent _ _ _ _ Da Hp) as (a' & -> & Da'). destruct (IH a' b Da' Db) as (l & Nl & Hl & E).
    exists (u :: l). split; [|split].
    + constructor; [|exact Nl]. intros Hi. apply Hl in Hi. destruct Hi as [Hi _]. apply b_le in Hi. apply Hup in Hp. lia.
    + intros k. cbn [In]. rewrite Hl. split.
      * intros [<-|(H1 & H2 & H3)].
        -- split; [constructor|]. split; [eapply below_step; eassumption|]. intros ->. apply b_le in Hb. apply Hup in Hp. lia.
        -- split; [eapply below_step; eassumption|]. auto.
      * intros (H1 & H2 & H3). destruct (below_inv _ _ _ _ Hp H1) as [->|H1']; [left; reflexivity|]. right. auto.
    + cbn [length]. lia.
Qed.

(* ----- finding the lowest unfinished ancestor ----- *)

(** [d] leads from every node to an ancestor of it; what it skips is before place [p]. *)
Definition finds (p : nat) (d : list nat) : Prop := length d = n /\ forall x, x < n -> exists y, nth_error d x = Some y /\
  below x y /\ (y = x -> p <= pl x \/ root ps x) /\ (forall k, below x k -> below k y -> k <> y -> pl k < p).

Lemma find_ok p : forall fuel d x, finds p d -> x < n -> n < fuel + x ->
  exists d' r, dsu_find fuel d x = Done (d', r) /\ finds p d' /\ below x r /\ (p <= pl r \/ root ps r) /\
    (forall k, below x k -> below k r -> k <> r -> pl k < p).
Proof.
  induction fuel as [|fuel IH]; intros d x D Hx Hfu; [lia|]. cbn [dsu_find].
  destruct (proj2 D x Hx) as (y & Ey & By & Sy & Ky). rewrite (proj2 (oget_done _ _ _) Ey). cbn [obind].
  destruct (Nat.eqb_spec y x) as [->|N].
  - exists d, x. split; [reflexivity|]. split; [exact D|]. split; [constructor|]. split; [auto|].
    intros k H1 H2 H3. exfalso. apply H3. apply b_eq; assumption.
  - pose proof (b_le _ _ By). pose proof (b_range _ _ By Hx) as Hy.
    destruct (IH d y D Hy) as (d' & r & E & D' & Br & Sr & Kr); [lia|]. rewrite E. cbn [obind].
    rewrite oset_ok by (rewrite (proj1 D'); exact Hx). cbn [obind]. exists (lset d' x r), r. split; [reflexivity|].
    assert (K : forall k, below x k -> below k r -> k <> r -> pl k < p).
    { intros k H1 H2 H3. destruct (below_compare _ _ _ H1 _ By) as [H4|H4].
      - destruct (Nat.eq_dec k y) as [->|Nk]; [apply Kr; [constructor|exact H2|exact H3]|]. apply Ky; assumption.
      - apply Kr; assumption. }
    assert (Bxr : below x r) by (eapply below_trans; eassumption).
    split; [|split; [exact Bxr|split; [exact Sr|exact K]]].
    split; [rewrite lset_length; apply D'|]. intros z Hz. rewrite nth_error_lset.
    destruct (Nat.ltb_spec x (length d')); [|rewrite (proj1 D') in *; lia].
    destruct (Nat.eqb_spec x z) as [<-|Nz]; [|apply D'; exact Hz].
    exists r. split; [reflexivity|]. split; [exact Bxr|]. split; [|exact K]. intros ->. apply b_le in Br. lia.
Qed.

Lemma finds_link p d j q : finds p d -> j < n -> pl j = p -> parent ps j q -> finds (S p) (lset d j q).
Proof.
  intros (L & H) Hj Ep Hq. split; [rewrite lset_length; exact L|]. intros x Hx. rewrite nth_error_lset.
  destruct (Nat.ltb_spec j (length d)); [|lia]. destruct (Nat.eqb_spec j x) as [<-|N].
  - exists q. split; [reflexivity|]. split; [eapply below_step; [exact Hq|constructor]|].
    split; [intros ->; apply Hup in Hq; lia|]. intros k H1 H2 H3. destruct (below_inv _ _ _ _ Hq H1) as [->|H1']; [lia|]. exfalso. apply H3. apply b_eq; assumption.
  - destruct (H x Hx) as (y & Ey & By & Sy & Ky). exists y. split; [exact Ey|]. split; [exact By|]. split.
    + intros Exy. destruct (Sy Exy) as [S|S]; [|right; exact S]. left.
      assert (pl x <> pl j) by (intros E; apply N; symmetry; apply pl_inj; assumption). lia.
    + intros k H1 H2 H3. specialize (Ky k H1 H2 H3). lia.
Qed.

Lemma finds_root p d j : finds p d -> j < n -> pl j = p -> root ps j -> finds (S p) d.
Proof.
  intros (L & H) Hj Ep Hq. split; [exact L|]. intros x Hx.
  destruct (H x Hx) as (y & Ey & By & Sy & Ky). exists y. split; [exact Ey|]. split; [exact By|]. split.
  - intros Exy. destruct (Sy Exy) as [S|S]; [|right; exact S]. destruct (Nat.eq_dec x j) as [->|N]; [right; exact Hq|]. left.
    assert (pl x <> pl j) by (intros E; apply N; apply pl_inj; assumption). lia.
  - intros k H1 H2 H3. specialize (Ky k H1 H2 H3). lia.
Qed.

(* ----- the count of one column ----- *)

(** What is known of column [u] before place [p] *)
Definition tally (u p c : nat) (nbr lf : option nat) : Prop :=
  (exists l, NoDup l /\ (forall k, In k l <-> k <> u /\ below k u /\ exists f, leaf f u /\ pl f < p /\ below f k) /\
     c = S (length l)) /\
  match nbr, lf with
  | None, None => forall f, leaf f u -> p <= pl f
  | Some q, Some l => exists f, leaf f u /\ pl f = q /\ q < p /\ (forall g, leaf g u -> pl g < p -> pl g <= q) /\
                      leaf l u /\ below l f
  | _, _ => False
  end.

Lemma leaf_split j u p f : leaf f u -> j < n -> pl j = p -> pl f < S p -> pl f < p \/ f = j.
Proof.
  intros H Hj Ep Hlt. destruct (Nat.eq_dec (pl f) p) as [E|]; [|lia]. right. apply pl_inj; [apply (leaf_lt _ _ H)|exact Hj|lia].
Qed.

Lemma tally_skip u p c nbr lf j : j < n -> pl j = p -> ~ leaf j u -> tally u p c nbr lf -> tally u (S p) c nbr lf.
Proof.
  intros Hj Ep N ((l & Nl & Hl & Ec) & H). split.
  - exists l. split; [exact Nl|]. split; [|exact Ec]. intros k. rewrite Hl. split; intros (H1 & H2 & f & H3 & H4 & H5).
    + split; [exact H1|]. split; [exact H2|]. exists f. split; [exact H3|]. split; [lia|exact H5].
    + split; [exact H1|]. split; [exact H2|]. exists f. split; [exact H3|]. split; [|exact H5].
      destruct (leaf_split j u p f H3 Hj Ep H4) as [ | -> ]; [assumption|contradiction].
  - destruct nbr as [q|], lf as [l'|]; try contradiction.
    + destruct H as (f & H1 & H2 & H3 & H4 & H5 & H6). exists f. split; [exact H1|]. split; [exact H2|]. split; [lia|].
      split; [|auto]. intros g Hg Hlt. destruct (leaf_split j u p g Hg Hj Ep Hlt) as [ | -> ]; [auto|contradiction].
    + intros f H1. specialize (H f H1). destruct (Nat.eq_dec (pl f) p) as [E|]; [|lia].
      exfalso. assert (f = j) by (apply pl_inj; [apply (leaf_lt _ _ H1)|exact Hj|lia]). subst f. contradiction.
Qed.

(** [j] is above an earlier leaf: nothing is added. *)
Lemma tally_covered u p c q lf j : j < n -> pl j = p -> leaf j u -> fp j <= q ->
  tally u p c (Some q) lf -> tally u (S p) c (Some p) lf.
Proof.
  intros Hj Ep Lj Hq ((l & Nl & Hl & Ec) & H). destruct lf as [l'|]; [|contradiction].
  destruct H as (f & H1 & H2 & H3 & H4 & H5 & H6).
  assert (Bfj : below f j) by (apply interval; [apply (leaf_lt _ _ H1)|exact Hj|lia]).
  split.
  - exists l. split; [exact Nl|]. split; [|exact Ec]. intros k. rewrite Hl. split; intros (K1 & K2 & g & K3 & K4 & K5).
    + split; [exact K1|]. split; [exact K2|]. exists g. split; [exact K3|]. split; [lia|exact K5].
    + split; [exact K1|]. split; [exact K2|]. destruct (leaf_split j u p g K3 Hj Ep K4) as [ | -> ].
      * exists g. auto.
      * exists f. split; [exact H1|]. split; [lia|]. eapply below_trans; eassumption.
  - exists j. split; [exact Lj|]. split; [exact Ep|]. split; [lia|]. split; [intros; lia|]. split; [exact H5|].
    eapply below_trans; eassumption.
Qed.

Lemma tally_again u p c nbr lf j : j < n -> pl j = p -> leaf j u -> tally u (S p) c nbr lf ->
  nbr = Some p /\ fp j <= p.
Proof.
  intros Hj Ep Lj (_ & H). split.
  - destruct nbr as [q|], lf as [l'|]; try contradiction.
    + destruct H as (f & H1 & H2 & H3 & H4 & _). pose proof (H4 j Lj). f_equal. lia.
    + specialize (H j Lj). lia.
  - assert (B : below j j) by constructor. apply interval in B; [lia|exact Hj|exact Hj].
Qed.

(** [j] is the first leaf of [u]. *)
Lemma tally_first u p c j a b : j < n -> pl j = p -> leaf j u -> depth ps j a -> depth ps u b ->
  tally u p c None None -> b <= a /\ tally u (S p) (c + (a - b)) (Some p) (Some j).
Proof.
  intros Hj Ep Lj Da Db ((l & Nl & Hl & Ec) & H). destruct (Hleaf _ _ Lj) as (Nj & Bj & Hu).
  destruct (path_length _ _ Bj a b Da Db) as (l2 & Nl2 & Hl2 & E2). split; [lia|]. split.
  - exists l2. split; [exact Nl2|]. split.
    + intros k. rewrite Hl2. split.
      * intros (K1 & K2 & K3). split; [exact K3|]. split; [exact K2|]. exists j. split; [exact Lj|]. split; [lia|exact K1].
      * intros (K1 & K2 & f & K3 & K4 & K5). split; [|auto].
        destruct (leaf_split j u p f K3 Hj Ep K4) as [K| -> ]; [|exact K5]. specialize (H f K3). lia.
    + assert (l = []). { destruct l as [|k l]; [reflexivity|]. destruct (proj1 (Hl k) (or_introl eq_refl)) as (_ & _ & f & F1 & F2 & _).
        specialize (H f F1). lia. } subst l. cbn [length] in Ec. lia.
  - exists j. split; [exact Lj|]. split; [exact Ep|]. split; [lia|]. split; [intros; lia|]. split; [exact Lj|constructor].
Qed.

(** [j] is another leaf; [r] is the lowest unfinished ancestor of the last one. *)
Lemma tally_next u p c j q l r a b : j < n -> pl j = p -> leaf j u -> q < fp j ->
  tally u p c (Some q) (Some l) ->
  below l r -> (p <= pl r \/ root ps r) -> (forall k, below l k -> below k r -> k <> r -> pl k < p) ->
  depth ps j a -> depth ps r b -> b <= a /\ tally u (S p) (c + (a - b)) (Some p) (Some j).
Proof.
  intros Hj Ep Lj Hq ((ls & Nl & Hl & Ec) & H) Br Sr Kr Da Db.
  destruct H as (f & H1 & H2 & H3 & H4 & H5 & H6).
  destruct (Hleaf _ _ Lj) as (Nj & Bj & Hu). destruct (Hleaf _ _ H5) as (Nl' & Bl & _).
  pose proof (leaf_lt _ _ H1) as Hfn. pose proof (leaf_lt _ _ H5) as Hln.
  pose proof (b_place _ _ Bj Hu) as Pju.
  (* r is a common ancestor of l and j below u *)
  assert (Bru : below r u).
  { destruct (below_compare _ _ _ Br _ Bl) as [B|B]; [exact B|]. destruct (Nat.eq_dec u r) as [->|N]; [constructor|].
    pose proof (Kr u Bl B N). lia. }
  assert (Hr : r < n) by (apply (b_range _ _ Br Hln)).
  assert (Hpr : p <= pl r).
  { destruct Sr as [S|S]; [exact S|]. rewrite <- (below_root _ _ _ S Bru). lia. }
  assert (Plf : pl l <= pl f) by (apply b_place; assumption).
  assert (Bjr : below j r).
  { apply interval; [exact Hj|exact Hr|]. apply (interval l r) in Br; [|exact Hln|exact Hr]. lia. }
  destruct (path_length _ _ Bjr a b Da Db) as (l2 & Nl2 & Hl2 & E2). split; [lia|]. split.
  - exists (l2 ++ ls). split.
    { apply NoDup_app_intro; [exact Nl2|exact Nl|]. intros k K1 K2. apply Hl2 in K1. destruct K1 as (J1 & J2 & J3).
      apply Hl in K2. destruct K2 as (_ & K2 & g & G1 & G2 & G3).
      assert (Hk : k < n) by (apply (b_range _ _ J1 Hj)). pose proof (b_place _ _ J1 Hk) as Pjk.
      (* the last leaf is below k too *)
      assert (Bfk : below f k).
      { apply interval; [exact Hfn|exact Hk|]. apply (interval g k) in G3; [|apply (leaf_lt _ _ G1)|exact Hk].
        pose proof (H4 g G1 G2). lia. }
      pose proof (below_trans _ _ _ _ H6 Bfk) as Blk.
      pose proof (Kr k Blk J2 J3). lia. }
    split.
    + intros k. rewrite in_app_iff, Hl2, Hl. split.
      * intros [(J1 & J2 & J3)|(K1 & K2 & g & G1 & G2 & G3)].
        -- split; [|split; [eapply below_trans; eassumption|]].
           ++ intros ->. apply J3. apply b_eq; assumption.
           ++ exists j. split; [exact Lj|]. split; [lia|exact J1].
        -- split; [exact K1|]. split; [exact K2|]. exists g. split; [exact G1|]. split; [lia|exact G3].
      * intros (K1 & K2 & g & G1 & G2 & G3). destruct (leaf_split j u p g G1 Hj Ep G2) as [G| -> ].
        -- right. split; [exact K1|]. split; [exact K2|]. exists g. auto.
        -- destruct (below_compare _ _ _ G3 _ Bjr) as [B|B].
           ++ destruct (Nat.eq_dec k r) as [->|N]; [|left; auto]. right. split; [exact K1|]. split; [exact K2|].
              exists l. split; [exact H5|]. split; [lia|exact Br].
           ++ right. split; [exact K1|]. split; [exact K2|]. exists l. split; [exact H5|]. split; [lia|].
              exact (below_trans _ _ _ _ Br B).
    + rewrite app_length. lia.
  - exists j. split; [exact Lj|]. split; [exact Ep|]. split; [lia|]. split; [intros; lia|]. split; [exact Lj|constructor].
Qed.

(* ----- the loop ----- *)

Context (levels : list nat) (Ll : length levels = n) (Hlev : forall v l, nth_error levels v = Some l -> depth ps v l).

Lemma level_at v : v < n -> exists l, nth_error levels v = Some l /\ depth ps v l.
Proof. intros H. destruct (nth_error_ex levels v) as [l E]; [lia|]. eauto. Qed.

Definition count_inv (p : nat) (st : count_state) (upto : nat -> nat) : Prop :=
  length (n_weights st) = n /\ length (n_counts st) = n /\ length (n_prev_nbr st) = n /\ length (n_prev_f st) = n /\
  finds p (n_dsu st) /\
  forall u, u < n -> exists c nbr lf, nth_error (n_counts st) u = Some c /\ nth_error (n_prev_nbr st) u = Some nbr /\
    nth_error (n_prev_f st) u = Some lf /\ tally u (upto u) c nbr lf.

Lemma oupdate_ok {A} (l : list A) i f : i < length l -> exists a, nth_error l i = Some a /\ oupdate l i f = Done (lset l i (f a)).
Proof.
  intros H. destruct (nth_error_ex l i H) as [a E]. exists a. split; [exact E|]. unfold oupdate.
  rewrite (proj2 (oget_done _ _ _) E). cbn [obind]. apply oset_ok. exact H.
Qed.

Lemma neighbor_ok j p st u upto : j < n -> pl j = p -> leaf j u -> (upto u = p \/ upto u = S p) ->
  count_inv p st upto -> exists st', count_neighbor levels j p (fp j) st u = Done st' /\
    count_inv p st' (fun v => if v =? u then S p else upto v).
Proof.
  intros Hj Ep Lj Hupto (L1 & L2 & L3 & L4 & D & H). destruct (Hleaf _ _ Lj) as (Nj & Bj & Hu).
  destruct (H u Hu) as (c & nbr & lf & E1 & E2 & E3 & T). unfold count_neighbor.
  rewrite (proj2 (oget_done _ _ _) E2). cbn [obind].
  assert (Finish : forall w c' nbr' lf' d, length w = n -> finds p d -> nbr' = Some p ->
    (lf' = lf \/ True) -> tally u (S p) c' nbr' lf' ->
    forall st', n_weights st' = w -> n_counts st' = lset (n_counts st) u c' ->
      n_prev_nbr st' = lset (n_prev_nbr st) u nbr' -> n_prev_f st' = lset (n_prev_f st) u lf' -> n_dsu st' = d ->
      count_inv p st' (fun v => if v =? u then S p else upto v)).
  { intros w c' nbr' lf' d Hw Hd _ _ T' st' W1 W2 W3 W4 W5. unfold count_inv. rewrite W1, W2, W3, W4, W5, !lset_length.
    split; [exact Hw|]. split; [exact L2|]. split; [exact L3|]. split; [exact L4|]. split; [exact Hd|].
    intros v Hv. rewrite !nth_error_lset, L2, L3, L4. destruct (Nat.ltb_spec u n); [|lia].
    rewrite (Nat.eqb_sym v u). destruct (Nat.eqb_spec u v) as [<-|N].
    - exists c', nbr', lf'. auto.
    - apply H. exact Hv. }
  assert (Same : forall l : list nat, forall x, nth_error l u = Some x -> lset l u x = l) by (intros; apply lset_same; assumption).
  assert (Sameo : forall l : list (option nat), forall x, nth_error l u = Some x -> lset l u x = l) by (intros; apply lset_same; assumption).
  destruct Hupto as [Eu|Eu]; rewrite Eu in T.
  - destruct (match nbr with None => true | Some q => q <? fp j end) eqn:Etest.
    + destruct (oupdate_ok (n_weights st) j (fun w => w + 1)%Z) as (w1 & _ & Ew); [lia|]. rewrite Ew. cbn [obind].
      rewrite (proj2 (oget_done _ _ _) E3). cbn [obind].
      destruct (level_at j Hj) as (a & Ea & Da). rewrite (proj2 (oget_done _ _ _) Ea). cbn [obind].
      destruct lf as [l|].
      * destruct nbr as [q|]; [|destruct T as (_ & [])]. apply Nat.ltb_lt in Etest.
        assert (Hl : l < n). { destruct T as (_ & f & _ & _ & _ & _ & Hl & _). apply (leaf_lt _ _ Hl). }
        rewrite (proj1 D). destruct (find_ok p (S n) (n_dsu st) l D Hl) as (d' & r & Ed & D' & Br & Sr & Kr); [lia|].
        rewrite Ed. cbn [obind]. assert (Hr : r < n) by (apply (b_range _ _ Br Hl)).
        destruct (level_at r Hr) as (b & Eb & Db). rewrite (proj2 (oget_done _ _ _) Eb). cbn [obind].
        destruct (tally_next u p c j q l r a b Hj Ep Lj Etest T Br Sr Kr Da Db) as (Hba & T').
        unfold osub at 1. destruct (Nat.leb_spec b a); [|lia]. cbn [obind].
        destruct (oupdate_ok (n_counts st) u (fun c => c + (a - b))) as (c0 & Ec0 & Ec); [lia|]. rewrite Ec. cbn [obind].
        destruct (oupdate_ok (lset (n_weights st) j (w1 + 1)%Z) r (fun w => w - 1)%Z) as (w2 & _ & Ew2); [rewrite lset_length; lia|].
        rewrite Ew2. cbn [obind]. rewrite oset_ok by lia. cbn [obind n_prev_nbr n_weights n_counts n_prev_f n_dsu].
        rewrite oset_ok by lia. cbn [obind]. eexists; split; [reflexivity|].
        assert (c0 = c) by congruence. subst c0.
        eapply Finish with (c' := c + (a - b)) (lf' := Some j); [|exact D'|reflexivity|auto|exact T'|reflexivity..].
        cbn [n_weights]. rewrite !lset_length. exact L1.
      * destruct nbr as [q|]; [destruct T as (_ & [])|].
        destruct (level_at u Hu) as (b & Eb & Db). rewrite (proj2 (oget_done _ _ _) Eb). cbn [obind].
        destruct (tally_first u p c j a b Hj Ep Lj Da Db T) as (Hba & T').
        unfold osub at 1. destruct (Nat.leb_spec b a); [|lia]. cbn [obind].
        destruct (oupdate_ok (n_counts st) u (fun c => c + (a - b))) as (c0 & Ec0 & Ec); [lia|]. rewrite Ec. cbn [obind].
        rewrite oset_ok by lia. cbn [obind n_prev_nbr n_weights n_counts n_prev_f n_dsu].
        rewrite oset_ok by lia. cbn [obind]. eexists; split; [reflexivity|].
        assert (c0 = c) by congruence. subst c0.
        eapply Finish with (c' := c + (a - b)) (lf' := Some j); [|exact D|reflexivity|auto|exact T'|reflexivity..].
        cbn [n_weights]. rewrite !lset_length. exact L1.
    + destruct nbr as [q|]; [|discriminate]. apply Nat.ltb_ge in Etest. cbn [obind].
      rewrite oset_ok by lia. cbn [obind]. eexists; split; [reflexivity|].
      pose proof (tally_covered u p c q lf j Hj Ep Lj Etest T) as T'.
      eapply Finish with (c' := c) (lf' := lf); [|exact D|reflexivity|auto|exact T'|reflexivity| | | |reflexivity].
      * exact L1.
      * cbn. symmetry. apply Same. exact E1.
      * reflexivity.
      * cbn. symmetry. apply Sameo. exact E3.
  - destruct (tally_again u p c nbr lf j Hj Ep Lj T) as (-> & Hfp).
    destruct (Nat.ltb_spec p (fp j)); [lia|]. cbn [obind]. rewrite oset_ok by lia. cbn [obind]. eexists; split; [reflexivity|].
    eapply Finish with (c' := c) (lf' := lf); [|exact D|reflexivity|auto|exact T|reflexivity| | | |reflexivity].
    + exact L1.
    + cbn. symmetry. apply Same. exact E1.
    + reflexivity.
    + cbn. symmetry. apply Sameo. exact E3.
Qed.

Lemma column_count_ok places firsts hadj j p st : j < n -> pl j = p ->
  (exists d, nth_error firsts j = Some d /\ nth_error places d = Some (fp j)) ->
  (exists us, nth_error hadj j = Some us /\ forall u, In u us <-> leaf j u) ->
  count_inv p st (fun _ => p) ->
  exists st', count_column ps levels places firsts hadj st (p, j) = Done st' /\ count_inv (S p) st' (fun _ => S p).
Proof.
  intros Hj Ep (d & Ed1 & Ed2) (us & Eus & Hus) (L1 & L2 & L3 & L4 & D & H). unfold count_column.
  destruct (nth_error_ex ps j) as [o Ho]; [lia|]. rewrite (proj2 (oget_done _ _ _) Ho). cbn [obind].
  assert (Ew : exists w, length w = n /\ match o with
      | Some p => oupdate (n_weights st) p (fun w => w - 1)%Z
      | None => Done (n_weights st) end = Done w).
  { destruct o as [q|]; [|eauto]. destruct (Hup _ _ Ho). destruct (oupdate_ok (n_weights st) q (fun w => w - 1)%Z) as (w1 & _ & Ew); [lia|].
    rewrite Ew. eexists; split; [|reflexivity]. rewrite lset_length. exact L1. }
  destruct Ew as (w & Lw & ->). cbn [obind]. rewrite (proj2 (oget_done _ _ _) Ed1). cbn [obind].
  rewrite (proj2 (oget_done _ _ _) Ed2). cbn [obind]. rewrite (proj2 (oget_done _ _ _) Eus). cbn [obind].
  destruct (ofold_ok_prefix (fun pr st => count_inv p st (fun v => if in_dec Nat.eq_dec v pr then S p else p))
    (count_neighbor levels j p (fp j)) us)
    with (s := CountState w (n_counts st) (n_prev_nbr st) (n_prev_f st) (n_dsu st)) as (st' & E & I').
  - intros pr u su st' El I'. assert (Lu : leaf j u) by (apply Hus; rewrite El; apply in_or_app; right; left; reflexivity).
    destruct (neighbor_ok j p st' u (fun v => if in_dec Nat.eq_dec v pr then S p else p) Hj Ep Lu) as (st2 & E2 & I2); [|exact I'|].
    { destruct (in_dec Nat.eq_dec u pr); auto. }
    exists st2. split; [exact E2|]. destruct I2 as (K1 & K2 & K3 & K4 & KD & K). split; [exact K1|]. split; [exact K2|].
    split; [exact K3|]. split; [exact K4|]. split; [exact KD|]. intros v Hv.
    destruct (K v Hv) as (c & nbr & lf & F1 & F2 & F3 & T). exists c, nbr, lf. split; [exact F1|]. split; [exact F2|].
    split; [exact F3|].
    assert (Ex : (if in_dec Nat.eq_dec v (pr ++ [u]) then S p else p) = (if v =? u then S p else if in_dec Nat.eq_dec v pr then S p else p)).
    { destruct (in_dec Nat.eq_dec v (pr ++ [u])) as [Hi|Hi]; destruct (Nat.eqb_spec v u) as [->|N]; try reflexivity.
      - destruct (in_dec Nat.eq_dec v pr) as [|Hn]; [reflexivity|]. apply in_app_or in Hi. destruct Hi as [Hi|[Hi|[]]]; [contradiction|congruence].
      - exfalso. apply Hi. apply in_or_app; right; left; reflexivity.
      - destruct (in_dec Nat.eq_dec v pr) as [Hn|]; [|reflexivity]. exfalso. apply Hi. apply in_or_app; left; exact Hn. }
    rewrite Ex. exact T.
  - split; [exact Lw|]. split; [exact L2|]. split; [exact L3|]. split; [exact L4|]. split; [exact D|]. exact H.
  - rewrite E. cbn [obind]. destruct I' as (K1 & K2 & K3 & K4 & KD & K).
    assert (Tl : forall u, u < n -> exists c nbr lf, nth_error (n_counts st') u = Some c /\ nth_error (n_prev_nbr st') u = Some nbr /\
      nth_error (n_prev_f st') u = Some lf /\ tally u (S p) c nbr lf).
    { intros u Hu. destruct (K u Hu) as (c & nbr & lf & F1 & F2 & F3 & T). exists c, nbr, lf. split; [exact F1|]. split; [exact F2|].
      split; [exact F3|]. destruct (in_dec Nat.eq_dec u us) as [Hi|Hi]; [exact T|].
      apply tally_skip with j; [exact Hj|exact Ep| |exact T]. rewrite <- Hus. exact Hi. }
    destruct o as [q|].
    + rewrite oset_ok by (rewrite (proj1 KD); exact Hj). cbn [obind]. eexists; split; [reflexivity|].
      split; [exact K1|]. split; [exact K2|]. split; [exact K3|]. split; [exact K4|]. split; [|exact Tl].
      apply finds_link; assumption.
    + eexists; split; [reflexivity|]. split; [exact K1|]. split; [exact K2|]. split; [exact K3|]. split; [exact K4|].
      split; [|exact Tl]. eapply finds_root; eassumption.
Qed.

(** cholesky.rs 267-307: all columns *)
Lemma counting_ok post places firsts hadj w : length w = n -> length post = n ->
  (forall p v, nth_error post p = Some v -> p = pl v /\ v < n) ->
  (forall u, u < n -> pl u < n) ->
  (forall j, j < n -> exists d, nth_error firsts j = Some d /\ nth_error places d = Some (fp j)) ->
  (forall j, j < n -> exists us, nth_error hadj j = Some us /\ forall u, In u us <-> leaf j u) ->
  exists st, ofold (count_column ps levels places firsts hadj) (enumerate post)
      (CountState w (repeat 1 n) (repeat None n) (repeat None n) (seq 0 n)) = Done st /\
    length (n_weights st) = n /\ length (n_counts st) = n /\
    forall u, u < n -> exists l, nth_error (n_counts st) u = Some (S (length l)) /\ NoDup l /\
      forall k, In k l <-> k <> u /\ below k u /\ exists f, leaf f u /\ below f k.
Proof.
  intros Lw Lpost Hpost Hpn Hfirst Hadj.
  destruct (ofold_ok_prefix (fun pre st => count_inv (length pre) st (fun _ => length pre))
    (count_column ps levels places firsts hadj) (enumerate post))
    with (s := CountState w (repeat 1 n) (repeat (@None nat) n) (repeat (@None nat) n) (seq 0 n)) as (st & E & I).
  - intros pre [p j] suf st El I. destruct (enumerate_at _ _ _ _ El) as (E1 & E2 & _ & _).
    cbn [fst snd] in E1, E2. subst p. destruct (Hpost _ _ E2) as [Ep Hj].
    destruct (column_count_ok places firsts hadj j (length pre) st Hj (eq_sym Ep) (Hfirst j Hj) (Hadj j Hj) I) as (st' & E' & I').
    exists st'. split; [exact E'|]. rewrite app_length. cbn [length]. rewrite Nat.add_1_r. exact I'.
  - cbn [length]. split; [exact Lw|]. split; [apply repeat_length|]. split; [apply repeat_length|]. split; [apply repeat_length|].
    cbn [n_dsu n_counts n_prev_nbr n_prev_f]. split.
    + split; [apply seq_length|]. intros x Hx. exists x. rewrite nth_error_seq, (proj2 (Nat.ltb_lt _ _)) by exact Hx.
      split; [reflexivity|]. split; [constructor|]. split; [left; lia|]. intros k H1 H2 H3. exfalso. apply H3. apply b_eq; assumption.
    + intros u Hu. exists 1, None, None. rewrite !nth_error_repeat, (proj2 (Nat.ltb_lt _ _)) by exact Hu.
      split; [reflexivity|]. split; [reflexivity|]. split; [reflexivity|]. split.
      * exists []. split; [constructor|]. split; [|reflexivity]. intros k. split; [intros []|]. intros (_ & _ & f & _ & F & _). lia.
      * intros; lia.
  - exists st. split; [exact E|]. destruct I as (K1 & K2 & _ & _ & _ & K). split; [exact K1|]. split; [exact K2|].
    intros u Hu. destruct (K u Hu) as (c & nbr & lf & F1 & _ & _ & (l & Nl & Hl & Ec) & _). exists l. rewrite <- Ec.
    split; [exact F1|]. split; [exact Nl|]. intros k. rewrite Hl, enumerate_length, Lpost.
    split; intros (H1 & H2 & f & H3 & H4); (split; [exact H1|]); (split; [exact H2|]); exists f.
    + destruct H4 as [_ H4]. auto.
    + split; [exact H3|]. split; [apply Hpn, (leaf_lt _ _ H3)|exact H4].
Qed.

(** cholesky.rs 310-315 *)
Lemma accumulate_ok w : length w = n -> exists w', accumulate_weights ps w = Done w'.
Proof.
  intros Lw. unfold accumulate_weights. rewrite Ln.
  destruct (ofold_ok (fun w => length w = n)
    (fun weights j =>
      let! p := oget ps j in
      match p with
      | None => Done weights
      | Some p => let! w := oget weights j in oupdate weights p (fun x => x + w)%Z
      end) (seq 0 n)) with (s := w) as (w' & E & _); [|exact Lw|eauto].
  intros w0 j Hj L. apply in_seq in Hj. destruct (nth_error_ex ps j) as [o Ho]; [lia|].
  rewrite (proj2 (oget_done _ _ _) Ho). cbn [obind]. destruct o as [p|]; [|eauto].
  destruct (oget_ok w0 j) as [x Ex]; [lia|]. rewrite Ex. cbn [obind]. destruct (Hup _ _ Ho).
  destruct (oupdate_ok w0 p (fun y => y + x)%Z) as (y & _ & Ey); [lia|]. rewrite Ey. eexists; split; [reflexivity|].
  rewrite lset_length. exact L.
Qed.
End Counts.
