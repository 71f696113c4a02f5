(** The computed elimination tree is the elimination tree *)
From Coq Require Import List Arith Bool Lia Relations.
From Verif Require Import Outcome Lib ModelSparse Spec_Sparse ModelForest Spec_Forest Proofs_Forest
  Proofs_Sparse Proofs_Format ModelCholesky Spec_Elimination.
Import ListNotations.

Lemma connected_refl link j a : connected link j a a.
Proof. apply rst_refl. Qed.

Lemma connected_mono link i j a b : i <= j -> connected link i a b -> connected link j a b.
Proof.
  intros H C. induction C as [a b (L & Ha & Hb)|a|a b _ IH|a b c _ IH1 _ IH2].
  - apply rst_step. split; [exact L|lia].
  - apply rst_refl.
  - apply rst_sym. exact IH.
  - eapply rst_trans; eassumption.
Qed.

(** [index_column] gives the structural entries of a column. *)
Lemma index_column_ok s j : well_formed s -> j < s_ncols s ->
  exists rows, index_column s j = Done rows /\ forall i, In i rows <-> structural s i j.
Proof.
  intros W Hj. pose proof (wf_count _ W) as Wc.
  destruct (nth_error_ex (s_column_pointers s) j) as [a Ha]; [lia|].
  destruct (nth_error_ex (s_column_pointers s) (S j)) as [b Hb]; [lia|].
  pose proof (wf_ordered _ W j a b (conj Ha Hb)) as Hab. pose proof (wf_pointers_le _ _ _ W Hb) as Hbl.
  unfold index_column, index_column_range. rewrite Wc.
  destruct (Nat.leb_spec (s_ncols s + 1) (j + 1)); [lia|].
  rewrite Nat.add_1_r. rewrite (proj2 (oget_done _ _ _) Ha), (proj2 (oget_done _ _ _) Hb). cbn [obind].
  unfold oslice. destruct (Nat.leb_spec a b); [|lia]. destruct (Nat.leb_spec b (length (s_row_indices s))); [|lia].
  cbn [andb]. eexists; split; [reflexivity|]. intros i. split.
  - intros Hi. apply In_nth_error in Hi. destruct Hi as [k Hk].
    rewrite nth_error_firstn, nth_error_skipn in Hk. destruct (Nat.ltb_spec k (b - a)); [|discriminate].
    exists (a + k), a, b. split; [split; assumption|]. split; [lia|]. split; [lia|exact Hk].
  - intros (k & a' & b' & [Ha' Hb'] & G1 & G2 & Hk).
    assert (a' = a) by congruence. assert (b' = b) by congruence. subst a' b'.
    apply nth_error_In with (n := k - a). rewrite nth_error_firstn, nth_error_skipn.
    destruct (Nat.ltb_spec (k - a) (b - a)); [|lia]. replace (a + (k - a)) with k by lia. exact Hk.
Qed.

(** The trees of [a] and [b] meet. *)
Definition meet (ps : list (option nat)) (a b : nat) : Prop :=
  exists r, below_node ps a r /\ below_node ps b r.

Lemma meet_sym ps a b : meet ps a b -> meet ps b a.
Proof. intros (r & H1 & H2). exists r. auto. Qed.

Lemma meet_trans ps a b c : meet ps a b -> meet ps b c -> meet ps a c.
Proof.
  intros (r & H1 & H2) (t & H3 & H4). destruct (below_compare _ _ _ H2 _ H3) as [H|H].
  - exists t. split; [eapply below_trans; eassumption|exact H4].
  - exists r. split; [exact H1|eapply below_trans; eassumption].
Qed.

Section Tree.
Context (link : nat -> nat -> Prop) (n : nat).

(** Links are right: to the first column connected with later ones. *)
Definition right_parents (c : nat) (ps : list (option nat)) : Prop :=
  length ps = n /\
  forall k j, parent ps k j -> k < j /\ j < c /\ connected link j k j /\
    forall i, k < i -> i < j -> ~ connected link i k i.

Lemma right_below c ps u v : right_parents c ps -> below_node ps u v -> u <= v /\ connected link v u v.
Proof.
  intros (_ & R) H. induction H as [v|u p v Hp _ IH]; [split; [lia|apply connected_refl]|].
  destruct (R u p Hp) as (H1 & _ & H3 & _). destruct IH as [H4 H5]. split; [lia|].
  eapply rst_trans; [|exact H5]. eapply connected_mono; [|exact H3]. exact H4.
Qed.

Lemma right_root c ps u v : right_parents c ps -> below_node ps u v -> nth_error ps u = Some None -> u = v.
Proof. intros _ H Hr. inversion H as [|? p ? Hp]; subst; [reflexivity|]. unfold parent in Hp. congruence. Qed.

(** Ancestor pointers, [cur] being climbed from *)
Definition right_ancestors (c : nat) (cur : option nat) (ps an : list (option nat)) : Prop :=
  length an = n /\
  forall k, k < n -> exists o, nth_error an k = Some o /\
    match o with
    | None => nth_error ps k = Some None
    | Some a => k < a /\ a <= c /\ (below_node ps k a \/ (a = c /\ exists x, cur = Some x /\ k < x /\ below_node ps k x)) /\
        nth_error ps k <> Some None
    end.

Lemma lset_parent ps k j u p : nth_error ps k = Some None -> parent (lset ps k (Some j)) u p <-> parent ps u p \/ (u = k /\ p = j).
Proof.
  intros Hk. unfold parent. rewrite nth_error_lset.
  assert (k < length ps) by (eapply nth_error_lt; exact Hk).
  destruct (Nat.ltb_spec k (length ps)); [|lia].
  destruct (Nat.eqb_spec k u) as [<-|N].
  - rewrite Hk. split.
    + intros E. injection E as <-. right; auto.
    + intros [E|[_ ->]]; [discriminate|reflexivity].
  - split; [auto|]. intros [E|[E _]]; [exact E|congruence].
Qed.

Lemma lset_below ps k j u v : nth_error ps k = Some None -> below_node ps u v -> below_node (lset ps k (Some j)) u v.
Proof.
  intros Hk H. induction H as [v|u p v Hp _ IH]; [constructor|].
  eapply below_step; [|exact IH]. apply lset_parent; auto.
Qed.

Lemma climb_ok c : c < n -> forall fuel ps an cur,
  right_parents (S c) ps -> right_ancestors c cur ps an ->
  nth_error ps c = Some None ->
  (forall i a b, i < c -> connected link i a b -> meet ps a b) ->
  match cur with
  | None => True
  | Some k => c - k < fuel /\ k <= c /\ connected link c k c
  end -> 0 < fuel ->
  exists ps' an', climb fuel c (ps, an) cur = Done (ps', an') /\
    right_parents (S c) ps' /\ right_ancestors c None ps' an' /\
    nth_error ps' c = Some None /\
    (forall u v, below_node ps u v -> below_node ps' u v) /\
    match cur with None => ps' = ps | Some k => below_node ps' k c end.
Proof.
  intros Hc. induction fuel as [|fuel IH]; intros ps an cur Rp Ra Hcr Hm Hcur Hfu; [lia|].
  cbn [climb]. destruct cur as [k|].
  2:{ exists ps, an. split; [reflexivity|]. split; [exact Rp|]. split; [exact Ra|]. split; [exact Hcr|]. auto. }
  destruct Hcur as (Hf & Hk & Hkc). destruct (Nat.leb_spec c k) as [Hle|Hlt].
  - assert (k = c) by lia. subst k. exists ps, an. split; [reflexivity|]. split; [exact Rp|].
    split; [|split; [exact Hcr|split; [auto|constructor]]].
    destruct Ra as (La & Ra). split; [exact La|]. intros u Hu. destruct (Ra u Hu) as (o & Eo & Ho).
    exists o. split; [exact Eo|]. destruct o as [a|]; [|exact Ho].
    destruct Ho as (H1 & H2 & H3 & H4). split; [exact H1|]. split; [exact H2|]. split; [|exact H4].
    left. destruct H3 as [H3|(-> & x & Ex & Hkx & Hx)]; [exact H3|]. injection Ex as <-. exact Hx.
  - pose proof Rp as (Lp & Rp'). pose proof Ra as (La & Ra').
    destruct (Ra' k) as (o & Eo & Ho); [lia|]. rewrite (proj2 (oget_done _ _ _) Eo). cbn [obind].
    rewrite oset_ok by lia. cbn [obind]. destruct o as [a|].
    + cbn [obind]. destruct Ho as (H1 & H2 & H3 & H4).
      assert (Hak : connected link c a c).
      { destruct H3 as [H3|(-> & _)]; [|apply connected_refl].
        eapply rst_trans; [|exact Hkc]. apply rst_sym. eapply connected_mono; [exact H2|].
        eapply right_below; eassumption. }
      assert (Hb : below_node ps k a).
      { destruct H3 as [H3|(-> & x & Ex & Hkx & Hx)]; [exact H3|]. injection Ex as <-. lia. }
      assert (Rk : right_ancestors c (Some a) ps (lset an k (Some c))).
      { split; [rewrite lset_length; exact La|]. intros u Hu. rewrite nth_error_lset.
        destruct (Nat.ltb_spec k (length an)); [|lia]. destruct (Nat.eqb_spec k u) as [<-|N].
        - eexists; split; [reflexivity|]. cbn beta iota. split; [exact Hlt|]. split; [lia|]. split; [|exact H4].
          right. split; [reflexivity|]. exists a. auto.
        - destruct (Ra' u Hu) as (o & Eu & Hou). exists o. split; [exact Eu|]. destruct o as [a'|]; [|exact Hou].
          destruct Hou as (G1 & G2 & G3 & G4). split; [exact G1|]. split; [exact G2|]. split; [|exact G4].
          destruct G3 as [G3|(-> & x & Ex & Hkx & Hx)]; [left; exact G3|]. injection Ex as <-.
          right. split; [reflexivity|]. exists a. split; [reflexivity|]. split; [lia|]. eapply below_trans; eassumption. }
      destruct (IH ps (lset an k (Some c)) (Some a) Rp Rk Hcr Hm) as (ps' & an' & E & Rp2 & Ra2 & Hc2 & Hmono & Hac); [|lia|].
      { split; [lia|]. split; [exact H2|exact Hak]. }
      exists ps', an'. split; [exact E|]. split; [exact Rp2|]. split; [exact Ra2|]. split; [exact Hc2|].
      split; [exact Hmono|]. eapply below_trans; [apply Hmono; exact Hb|exact Hac].
    + rewrite oset_ok by lia. cbn [obind].
      assert (Hfuel : 0 < fuel) by lia. destruct fuel as [|fuel]; [lia|]. cbn [climb].
      assert (Hmono : forall u v, below_node ps u v -> below_node (lset ps k (Some c)) u v).
      { intros u v. apply lset_below. exact Ho. }
      assert (Hkc' : below_node (lset ps k (Some c)) k c).
      { eapply below_step; [|constructor]. apply lset_parent; auto. }
      eexists; eexists; split; [reflexivity|]. split; [|split; [|split; [|split]]].
      * split; [rewrite lset_length; exact Lp|]. intros u p Hp. apply lset_parent in Hp; [|exact Ho].
        destruct Hp as [Hp|[-> ->]]; [apply Rp'; exact Hp|]. split; [exact Hlt|]. split; [lia|]. split; [exact Hkc|].
        intros i H1 H2 Hcon. destruct (Hm i k i H2 Hcon) as (r & G1 & G2).
        rewrite <- (right_root _ _ _ _ Rp G1 Ho) in G2. apply (right_below _ _ _ _ Rp) in G2. lia.
      * split; [rewrite lset_length; exact La|]. intros u Hu. rewrite nth_error_lset.
        destruct (Nat.ltb_spec k (length an)); [|lia]. destruct (Nat.eqb_spec k u) as [<-|N].
        -- eexists; split; [reflexivity|]. cbn beta iota. split; [exact Hlt|]. split; [lia|].
           split; [left; exact Hkc'|]. rewrite nth_error_lset_eq by lia. discriminate.
        -- destruct (Ra' u Hu) as (o & Eu & Hou). exists o. split; [exact Eu|].
           rewrite nth_error_lset_ne by exact N. destruct o as [a'|]; [|exact Hou].
           destruct Hou as (G1 & G2 & G3 & G4). split; [exact G1|]. split; [exact G2|]. split; [|exact G4]. left.
           destruct G3 as [G3|(-> & x & Ex & Hkx & Hx)]; [apply Hmono; exact G3|]. injection Ex as <-.
           eapply below_trans; [apply Hmono; exact Hx|exact Hkc'].
      * rewrite nth_error_lset_ne by lia. exact Hcr.
      * exact Hmono.
      * exact Hkc'.
Qed.

(** Before column [c], in [S c = c'] the bound on parents; and while it is processed *)
Definition before (c c' : nat) (ps an : list (option nat)) : Prop :=
  right_parents c' ps /\ right_ancestors c None ps an /\
  (forall a b, link a b -> a < c -> b < c -> meet ps a b).

Lemma before_connected c c' ps an i a b :
  before c c' ps an -> i < c -> connected link i a b -> meet ps a b.
Proof.
  intros (_ & _ & M) Hi C. induction C as [a b (L & Ha & Hb)|a|a b _ IH|a b d _ IH1 _ IH2].
  - apply M; [exact L|lia|lia].
  - exists a. split; constructor.
  - apply meet_sym. exact IH.
  - eapply meet_trans; eassumption.
Qed.

Lemma before_start c ps an : c < n -> before c c ps an -> before c (S c) ps an /\ nth_error ps c = Some None.
Proof.
  intros Hc ((Lp & Rp) & Ra & M). split.
  - split; [|split; [exact Ra|exact M]]. split; [exact Lp|]. intros k j H.
    destruct (Rp k j H) as (H1 & H2 & H3). split; [exact H1|]. split; [lia|exact H3].
  - destruct (nth_error_ex ps c) as [[j|] Hj]; [lia| |exact Hj].
    destruct (Rp c j Hj). lia.
Qed.

Lemma before_next c ps an : before c (S c) ps an -> (forall a b, link a b -> a < S c -> b < S c -> meet ps a b) ->
  before (S c) (S c) ps an.
Proof.
  intros (Rp & (La & Ra) & _) M. split; [exact Rp|]. split; [|exact M]. split; [exact La|].
  intros k Hk. destruct (Ra k Hk) as (o & Eo & Ho). exists o. split; [exact Eo|]. destruct o as [a|]; [|exact Ho].
  destruct Ho as (H1 & H2 & H3 & H4). split; [exact H1|]. split; [lia|]. split; [|exact H4]. left.
  destruct H3 as [H3|(_ & x & Ex & _)]; [exact H3|discriminate].
Qed.

Lemma meet_mono ps ps' : (forall u v, below_node ps u v -> below_node ps' u v) -> forall a b, meet ps a b -> meet ps' a b.
Proof. intros H a b (r & H1 & H2). exists r. auto. Qed.

(** Climbing from a column connected to [c] *)
Lemma climb_before c ps an k : c < n -> before c (S c) ps an -> nth_error ps c = Some None ->
  k < c -> connected link c k c ->
  exists ps' an', climb (S n) c (ps, an) (Some k) = Done (ps', an') /\ before c (S c) ps' an' /\
    nth_error ps' c = Some None /\ (forall u v, below_node ps u v -> below_node ps' u v) /\ below_node ps' k c.
Proof.
  intros Hc B Hr Hk Hkc. pose proof B as (Rp & Ra & M).
  destruct (climb_ok c Hc (S n) ps an (Some k)) as (ps' & an' & E & Rp' & Ra' & Hr' & Hm & Hb).
  - exact Rp.
  - destruct Ra as (La & Ra). split; [exact La|]. intros u Hu. destruct (Ra u Hu) as (o & Eo & Ho).
    exists o. split; [exact Eo|]. destruct o as [a|]; [|exact Ho].
    destruct Ho as (H1 & H2 & H3 & H4). split; [exact H1|]. split; [exact H2|]. split; [|exact H4]. left.
    destruct H3 as [H3|(_ & x & Ex & _)]; [exact H3|discriminate].
  - exact Hr.
  - intros i a b. apply (before_connected _ _ _ _ i a b B).
  - split; [lia|]. split; [lia|exact Hkc].
  - lia.
  - exists ps', an'. split; [exact E|]. split; [|split; [exact Hr'|split; [exact Hm|exact Hb]]].
    split; [exact Rp'|]. split; [exact Ra'|]. intros a b L Ha Hb'. eapply meet_mono; [exact Hm|]. apply M; assumption.
Qed.

Lemma climb_done c st k : c <= k -> climb (S n) c st (Some k) = Done st.
Proof. intros H. cbn [climb]. destruct (Nat.leb_spec c k); [reflexivity|lia]. Qed.

Lemma before_zero : before 0 0 (repeat None n) (repeat None n).
Proof.
  split; [|split].
  - split; [apply repeat_length|]. intros k j H. unfold parent in H. rewrite nth_error_repeat in H.
    destruct (k <? n); discriminate.
  - split; [apply repeat_length|]. intros k Hk. exists None. rewrite !nth_error_repeat.
    destruct (Nat.ltb_spec k n); [auto|lia].
  - intros; lia.
Qed.

Lemma before_final ps an : before n n ps an ->
  forall k o, nth_error ps k = Some o -> elimination_parent link n k o.
Proof.
  intros B k [j|] H; pose proof B as (Rp & _); cbn [elimination_parent].
  - destruct (proj2 Rp k j H) as (H1 & H2 & H3). auto.
  - intros j H1 H2 C. destruct (before_connected _ _ _ _ j k j B H2 C) as (r & G1 & G2).
    rewrite <- (right_root _ _ _ _ Rp G1 H) in G2. apply (right_below _ _ _ _ Rp) in G2. lia.
Qed.
End Tree.

Section Symmetric.
Context (s : structure) (W : well_formed s).
Let n := s_ncols s.

Lemma symmetric_column c ps an : c < n -> before (linked_symmetric s) n c c ps an ->
  exists ps' an', etree_column true s (ps, an, []) c = Done (ps', an', []) /\
    before (linked_symmetric s) n (S c) (S c) ps' an'.
Proof.
  intros Hc B. destruct (before_start _ _ _ _ _ Hc B) as [B1 Hr].
  unfold etree_column. destruct (index_column_ok s c W Hc) as (rows & E & Hrows). rewrite E. cbn [obind].
  destruct (ofold_ok_prefix
    (fun pre (st : list (option nat) * list (option nat) * list (option nat)) =>
       let '(ps', an', prev) := st in
       prev = [] /\ before (linked_symmetric s) n c (S c) ps' an' /\ nth_error ps' c = Some None /\
       forall row, In row pre -> row < c -> below_node ps' row c)
    (etree_row true (s_ncols s) c) rows) with (s := (ps, an, @nil (option nat)))
    as ([[ps' an'] prev] & E' & (-> & B' & _ & Hb)).
  - intros pre row post [[ps' an'] prev] El (-> & B' & Hr' & Hb). unfold etree_row. cbn [obind]. fold n.
    destruct (Nat.lt_ge_cases row c) as [Hlt|Hge].
    + destruct (climb_before _ _ c ps' an' row Hc B' Hr' Hlt) as (ps2 & an2 & E2 & B2 & Hr2 & Hm & Hb2).
      { apply rst_step. split; [|lia]. split; [exact Hlt|]. apply Hrows. rewrite El. apply in_or_app; right; left; reflexivity. }
      rewrite E2. cbn [obind]. eexists; split; [reflexivity|]. split; [reflexivity|]. split; [exact B2|]. split; [exact Hr2|].
      intros r Hi Hl. apply in_app_or in Hi. destruct Hi as [Hi|[<-|[]]]; [apply Hm; apply Hb; assumption|exact Hb2].
    + rewrite climb_done by exact Hge. cbn [obind]. eexists; split; [reflexivity|]. split; [reflexivity|]. split; [exact B'|].
      split; [exact Hr'|]. intros r Hi Hl. apply in_app_or in Hi. destruct Hi as [Hi|[<-|[]]]; [auto|lia].
  - split; [reflexivity|]. split; [exact B1|]. split; [exact Hr|]. intros row [].
  - exists ps', an'. split; [exact E'|]. apply before_next; [exact B'|].
    intros a b Hab Ha Hb'. destruct (Nat.eq_dec b c) as [->|N].
    + exists c. split; [|constructor]. apply Hb; [apply Hrows; apply Hab|apply Hab].
    + apply B'; [exact Hab|destruct Hab; lia|lia].
Qed.

Lemma symmetric_ok : exists ps, elimination_tree true s = Done ps /\ length ps = n /\
  forall k o, nth_error ps k = Some o -> elimination_parent (linked_symmetric s) n k o.
Proof.
  unfold elimination_tree. fold n.
  destruct (ofold_ok_prefix
    (fun pre (st : list (option nat) * list (option nat) * list (option nat)) =>
       let '(ps, an, prev) := st in
       prev = [] /\ before (linked_symmetric s) n (length pre) (length pre) ps an)
    (etree_column true s) (seq 0 n)) with (s := (repeat (@None nat) n, repeat (@None nat) n, @nil (option nat)))
    as ([[ps an] prev] & E & (-> & B)).
  - intros pre c post [[ps an] prev] El (-> & B).
    assert (Ec : nth_error (seq 0 n) (length pre) = Some c).
    { rewrite El. rewrite nth_error_app2 by lia. rewrite Nat.sub_diag. reflexivity. }
    rewrite nth_error_seq in Ec. destruct (Nat.ltb_spec (length pre) n) as [Hc|]; [|discriminate].
    injection Ec as <-. cbn [Nat.add]. destruct (symmetric_column _ _ _ Hc B) as (ps' & an' & E & B').
    exists (ps', an', []). split; [exact E|]. rewrite app_length. cbn [length]. rewrite Nat.add_1_r. auto.
  - split; [reflexivity|]. apply before_zero.
  - rewrite E. cbn [obind fst]. rewrite seq_length in B. exists ps. split; [reflexivity|].
    split; [apply B|]. eapply before_final; exact B.
Qed.
End Symmetric.

Section Product.
Context (s : structure) (W : well_formed s).
Let n := s_ncols s.

(** [prev] is the last column before [c] with an entry in [row]. *)
Definition last_column (c row : nat) (prev : option nat) : Prop :=
  match prev with
  | None => forall x, x < c -> ~ structural s row x
  | Some p => p < c /\ structural s row p /\ forall x, x < c -> structural s row x -> x <= p
  end.

Lemma product_column c ps an prev : c < n -> before (linked_product s) n c c ps an ->
  length prev = s_nrows s -> (forall row o, nth_error prev row = Some o -> last_column c row o) ->
  exists ps' an' prev', etree_column false s (ps, an, prev) c = Done (ps', an', prev') /\
    before (linked_product s) n (S c) (S c) ps' an' /\
    length prev' = s_nrows s /\ (forall row o, nth_error prev' row = Some o -> last_column (S c) row o).
Proof.
  intros Hc B Lv Hv. destruct (before_start _ _ _ _ _ Hc B) as [B1 Hr].
  unfold etree_column. destruct (index_column_ok s c W Hc) as (rows & E & Hrows). rewrite E. cbn [obind].
  destruct (ofold_ok_prefix
    (fun pre (st : list (option nat) * list (option nat) * list (option nat)) =>
       let '(ps', an', prev') := st in
       length prev' = s_nrows s /\
       (forall row o, nth_error prev' row = Some o ->
          (In row pre /\ o = Some c) \/ (~ In row pre /\ nth_error prev row = Some o)) /\
       before (linked_product s) n c (S c) ps' an' /\ nth_error ps' c = Some None /\
       forall row x, In row pre -> x < c -> structural s row x -> meet ps' x c)
    (etree_row false (s_ncols s) c) rows) with (s := (ps, an, prev))
    as ([[ps' an'] prev'] & E' & (Lv' & Hv' & B' & _ & Hb)).
  - intros pre row post [[ps' an'] prev'] El (Lv' & Hv' & B' & Hr' & Hb). unfold etree_row. fold n.
    assert (Hs : structural s row c) by (apply Hrows; rewrite El; apply in_or_app; right; left; reflexivity).
    assert (Hrow : row < length prev').
    { rewrite Lv'. destruct Hs as (k & a & b & _ & _ & _ & Hk). eapply wf_bound; eassumption. }
    destruct (nth_error_ex _ _ Hrow) as [o Ho]. rewrite (proj2 (oget_done _ _ _) Ho). cbn [obind].
    assert (Hset : forall row0 o0, nth_error (lset prev' row (Some c)) row0 = Some o0 ->
      (In row0 (pre ++ [row]) /\ o0 = Some c) \/ (~ In row0 (pre ++ [row]) /\ nth_error prev row0 = Some o0)).
    { intros r o' H. rewrite nth_error_lset in H. destruct (Nat.ltb_spec row (length prev')); [|lia].
      destruct (Nat.eqb_spec row r) as [<-|N].
      - injection H as <-. left. split; [apply in_or_app; right; left; reflexivity|reflexivity].
      - destruct (Hv' r o' H) as [[H1 H2]|[H1 H2]].
        + left. split; [apply in_or_app; left; exact H1|exact H2].
        + right. split; [|exact H2]. intros Hi. apply in_app_or in Hi. destruct Hi as [Hi|[Hi|[]]]; contradiction. }
    assert (Hcase : (exists p, o = Some p /\ p < c /\ structural s row p /\ forall x, x < c -> structural s row x -> x <= p) \/
                    (o = None /\ forall x, x < c -> ~ structural s row x) \/ (o = Some c /\ In row pre)).
    { destruct (Hv' row o Ho) as [[H1 H2]|[H1 H2]]; [right; right; auto|].
      pose proof (Hv row o H2) as Hl. destruct o as [p|]; [left; exists p; auto|right; left; auto]. }
    destruct Hcase as [(p & -> & Hp & Sp & _)|[[-> Hno]|[-> Hin]]].
    + destruct (climb_before _ _ c ps' an' p Hc B' Hr' Hp) as (ps2 & an2 & E2 & B2 & Hr2 & Hm & Hb2).
      { apply rst_step. split; [|lia]. exists row. auto. }
      rewrite E2. cbn [obind]. rewrite oset_ok by exact Hrow. cbn [obind].
      eexists; split; [reflexivity|]. split; [rewrite lset_length; exact Lv'|]. split; [exact Hset|].
      split; [exact B2|]. split; [exact Hr2|].
      intros r x Hi Hx Sx. apply in_app_or in Hi. destruct Hi as [Hi|[<-|[]]].
      * eapply meet_mono; [exact Hm|]. eapply Hb; eassumption.
      * apply meet_trans with p.
        -- apply B2; [exists row; auto|exact Hx|exact Hp].
        -- exists c. split; [exact Hb2|constructor].
    + cbn [climb obind]. rewrite oset_ok by exact Hrow. cbn [obind].
      eexists; split; [reflexivity|]. split; [rewrite lset_length; exact Lv'|]. split; [exact Hset|].
      split; [exact B'|]. split; [exact Hr'|].
      intros r x Hi Hx Sx. apply in_app_or in Hi. destruct Hi as [Hi|[<-|[]]]; [eapply Hb; eassumption|].
      exfalso. eapply Hno; eassumption.
    + rewrite climb_done by lia. cbn [obind]. rewrite oset_ok by exact Hrow. cbn [obind].
      eexists; split; [reflexivity|]. split; [rewrite lset_length; exact Lv'|]. split; [exact Hset|].
      split; [exact B'|]. split; [exact Hr'|].
      intros r x Hi Hx Sx. apply in_app_or in Hi. destruct Hi as [Hi|[<-|[]]]; eapply Hb; eassumption.
  - split; [exact Lv|]. split; [intros row o H; right; split; [intros []|exact H]|]. split; [exact B1|]. split; [exact Hr|].
    intros row x [].
  - exists ps', an', prev'. split; [exact E'|]. split; [|split; [exact Lv'|]].
    + apply before_next; [exact B'|]. intros a b (row & Ha & Hb1) La Lb.
      destruct (Nat.eq_dec a c) as [->|Na], (Nat.eq_dec b c) as [->|Nb].
      * exists c. split; constructor.
      * apply meet_sym. eapply Hb; [apply Hrows; exact Ha|lia|exact Hb1].
      * eapply Hb; [apply Hrows; exact Hb1|lia|exact Ha].
      * apply B'; [exists row; auto|lia|lia].
    + intros row o H. destruct (Hv' row o H) as [[H1 ->]|[H1 H2]]; cbn [last_column].
      * split; [lia|]. split; [apply Hrows; exact H1|]. intros; lia.
      * pose proof (Hv row o H2) as Hl. assert (Nc : ~ structural s row c) by (rewrite <- Hrows; exact H1).
        destruct o as [p|]; cbn [last_column] in *.
        -- destruct Hl as (G1 & G2 & G3). split; [lia|]. split; [exact G2|]. intros x Hx Sx.
           apply G3; [|exact Sx]. destruct (Nat.eq_dec x c) as [->|]; [contradiction|lia].
        -- intros x Hx Sx. destruct (Nat.eq_dec x c) as [->|]; [contradiction|]. apply (Hl x); [lia|exact Sx].
Qed.

Lemma product_ok : exists ps, elimination_tree false s = Done ps /\ length ps = n /\
  forall k o, nth_error ps k = Some o -> elimination_parent (linked_product s) n k o.
Proof.
  unfold elimination_tree. fold n.
  destruct (ofold_ok_prefix
    (fun pre (st : list (option nat) * list (option nat) * list (option nat)) =>
       let '(ps, an, prev) := st in
       before (linked_product s) n (length pre) (length pre) ps an /\
       length prev = s_nrows s /\ (forall row o, nth_error prev row = Some o -> last_column (length pre) row o))
    (etree_column false s) (seq 0 n)) with (s := (repeat (@None nat) n, repeat (@None nat) n, repeat (@None nat) (s_nrows s)))
    as ([[ps an] prev] & E & (B & _)).
  - intros pre c post [[ps an] prev] El (B & Lv & Hv).
    assert (Ec : nth_error (seq 0 n) (length pre) = Some c).
    { rewrite El. rewrite nth_error_app2 by lia. rewrite Nat.sub_diag. reflexivity. }
    rewrite nth_error_seq in Ec. destruct (Nat.ltb_spec (length pre) n) as [Hc|]; [|discriminate].
    injection Ec as <-. cbn [Nat.add]. destruct (product_column _ _ _ _ Hc B Lv Hv) as (ps' & an' & prev' & E & B' & Lv' & Hv').
    exists (ps', an', prev'). split; [exact E|]. rewrite app_length. cbn [length]. rewrite Nat.add_1_r. auto.
  - split; [apply before_zero|]. split; [apply repeat_length|]. intros row o H. rewrite nth_error_repeat in H.
    destruct (row <? s_nrows s); [|discriminate]. injection H as <-. cbn. intros; lia.
  - rewrite E. cbn [obind fst]. rewrite seq_length in B. exists ps. split; [reflexivity|].
    split; [apply B|]. eapply before_final; exact B.
Qed.
End Product.

(* ----- the first entries of the factor ----- *)

Section Factor.
Context (link : nat -> nat -> Prop).

Lemma filled_connected a b : filled link a b -> connected link (Nat.max a b) a b.
Proof.
  induction 1 as [a b L N|a b _ IH|k a b _ IH1 _ IH2 H1 H2 N].
  - apply rst_step. split; [exact L|lia].
  - apply rst_sym. rewrite Nat.max_comm. exact IH.
  - eapply rst_trans with k.
    + apply rst_sym. eapply connected_mono; [|exact IH1]. lia.
    + eapply connected_mono; [|exact IH2]. lia.
Qed.

Lemma connected_bound j a b : connected link j a b -> a <= j <-> b <= j.
Proof.
  induction 1 as [a b (_ & Ha & Hb)|a|a b _ IH|a b c _ IH1 _ IH2]; [lia|lia|lia|lia].
Qed.

Context (n : nat) (ps : list (option nat)) (Ln : length ps = n)
  (H : forall k o, nth_error ps k = Some o -> elimination_parent link n k o).

(** The columns of the component of [k] among columns up to [k] have an entry
    with the parent of [k]. *)
Lemma component_link k j : k < j -> connected link j k j ->
  (forall i, k < i -> i < j -> ~ connected link i k i) ->
  exists x, connected link k x k /\ (link x j \/ link j x).
Proof.
  intros Hkj C Hmin. set (Fx := exists x, connected link k x k /\ (link x j \/ link j x)).
  assert (St : forall a b, (link a b \/ link b a) -> a <= j -> b <= j -> connected link k a k -> connected link k b k \/ Fx).
  { intros a b L Ha Hb Ca. assert (a <= k) by (apply (connected_bound k a k Ca); lia).
    destruct (Nat.le_gt_cases b k) as [Hle|Hgt].
    - left. eapply rst_trans; [|exact Ca]. destruct L as [L|L]; [apply rst_sym|]; apply rst_step; (split; [exact L|lia]).
    - destruct (Nat.eq_dec b j) as [->|N]; [right; exists a; tauto|]. exfalso. apply (Hmin b); [lia|lia|].
      eapply rst_trans with a.
      + apply rst_sym. eapply connected_mono; [|exact Ca]. lia.
      + destruct L as [L|L]; [|apply rst_sym]; apply rst_step; (split; [exact L|lia]). }
  assert (G : forall a b, connected link j a b ->
    (connected link k a k -> connected link k b k \/ Fx) /\ (connected link k b k -> connected link k a k \/ Fx)).
  { intros a b Cab. induction Cab as [a b (L & Ha & Hb)|a|a b _ IH|a b c _ IH1 _ IH2].
    - split; apply St; auto.
    - auto.
    - tauto.
    - tauto. }
  destruct (proj1 (G k j C) (connected_refl _ _ _)) as [Cj|]; [|assumption].
  exfalso. assert (j <= k) by (apply (connected_bound k j k Cj); lia). lia.
Qed.

Lemma parent_filled : forall k j, parent ps k j -> filled link k j.
Proof.
  intros k. induction k as [k IH] using (well_founded_induction lt_wf). intros j Hj.
  destruct (H k (Some j) Hj) as (Hkj & _ & C & Hmin).
  destruct (component_link k j Hkj C Hmin) as (x & Cx & Lx).
  assert (Hx : x <= k) by (apply (connected_bound k x k Cx); lia).
  assert (Fx : filled link x j).
  { destruct Lx as [L|L]; [|apply filled_sym]; (apply filled_link; [exact L|lia]). }
  clear Lx. remember (k - x) as d eqn:Ed. revert x Cx Hx Fx Ed.
  induction d as [d IHd] using (well_founded_induction lt_wf). intros x Cx Hx Fx Ed.
  destruct (Nat.eq_dec x k) as [->|N]; [exact Fx|].
  destruct (nth_error_ex ps x) as [o Ho]; [apply nth_error_lt in Hj; lia|].
  assert (Hn : k < n) by (rewrite <- Ln; eapply nth_error_lt; exact Hj).
  pose proof (H x o Ho) as Hp. destruct o as [p|]; cbn [elimination_parent] in Hp.
  - destruct Hp as (P1 & P2 & P3 & P4).
    assert (p <= k). { destruct (Nat.le_gt_cases p k); [assumption|]. exfalso. apply (P4 k); [lia|lia|exact Cx]. }
    apply (IHd (k - p)) with (x := p); [lia| |assumption| |reflexivity].
    + eapply rst_trans; [|exact Cx]. apply rst_sym. eapply connected_mono; [|exact P3]. assumption.
    + eapply filled_step with (k := x); [apply IH; [lia|exact Ho]|exact Fx|exact P1|lia|lia].
  - exfalso. apply (Hp k); [lia|exact Hn|exact Cx].
Qed.

Lemma first_entries : forall k o, nth_error ps k = Some o -> first_entry link n k o.
Proof.
  intros k [j|] Hk; pose proof (H k _ Hk) as Hp; cbn [first_entry elimination_parent] in *.
  - destruct Hp as (P1 & P2 & P3 & P4). split; [exact P1|]. split; [exact P2|]. split; [apply parent_filled; exact Hk|].
    intros i H1 H2 Fi. apply (P4 i H1 H2). apply filled_connected in Fi. rewrite Nat.max_r in Fi by lia. exact Fi.
  - intros j H1 H2 Fj. apply (Hp j H1 H2). apply filled_connected in Fj. rewrite Nat.max_r in Fj by lia. exact Fj.
Qed.

(** Parents are later columns, so they make a forest. *)
Lemma elimination_forest : forest ps.
Proof.
  intros v Hv. remember (n - v) as d eqn:Ed. revert v Hv Ed.
  induction d as [d IHd] using (well_founded_induction lt_wf). intros v Hv Ed.
  destruct (nth_error_ex ps v Hv) as [[j|] Hj].
  - destruct (H v _ Hj) as (P1 & P2 & _). destruct (IHd (n - j)) with (v := j) as (r & Hb & Hr); [lia|lia|reflexivity|].
    exists r. split; [|exact Hr]. eapply below_step; eassumption.
  - exists v. split; [constructor|exact Hj].
Qed.
End Factor.
