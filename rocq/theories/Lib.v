(** Facts about lists and outcomes used by the proofs. *)
From Coq Require Import List Arith NArith Lia Permutation.
From Verif Require Import Outcome.
Import ListNotations.

(** ** Outcomes *)
Lemma obind_done {A B} (m : outcome A) (k : A -> outcome B) b :
  obind m k = Done b -> exists a, m = Done a /\ k a = Done b.
Proof. destruct m; simpl; intros; try discriminate; eauto. Qed.

Lemma oget_done {A} (l : list A) i a : oget l i = Done a <-> nth_error l i = Some a.
Proof. unfold oget. destruct (nth_error l i); split; congruence. Qed.

Lemma ounwrap_done {A} (o : option A) a : ounwrap o = Done a <-> o = Some a.
Proof. destruct o; simpl; split; congruence. Qed.

Lemma oassert_done b u : oassert b = Done u <-> b = true.
Proof. destruct b, u; simpl; split; congruence. Qed.

Lemma to_u32_done n m : to_u32 n = Done m -> m = n /\ (N.of_nat n < 2 ^ 32)%N.
Proof.
  unfold to_u32. destruct (N.ltb_spec (N.of_nat n) (2 ^ 32)); intros H'; inversion H'; subst; auto.
Qed.
Lemma to_u32_ok n : (N.of_nat n < 2 ^ 32)%N -> to_u32 n = Done n.
Proof. unfold to_u32. intros H. apply N.ltb_lt in H. now rewrite H. Qed.

(** Decompose a successful run into the successful runs of its parts. *)
Ltac odone :=
  repeat match goal with
  | H : obind _ _ = Done _ |- _ =>
      let a := fresh "a" in let Ha := fresh "Ha" in
      apply obind_done in H; destruct H as (a & Ha & H);
      repeat match goal with
      | a : (_ * _)%type |- _ => destruct a
      end; simpl in H
  | H : Done _ = Done _ |- _ => inversion H; subst; clear H
  | H : oget _ _ = Done _ |- _ => apply oget_done in H
  | H : ounwrap _ = Done _ |- _ => apply ounwrap_done in H
  | H : oassert _ = Done _ |- _ => apply oassert_done in H
  | H : Panic = Done _ |- _ => discriminate H
  | H : Timeout = Done _ |- _ => discriminate H
  | H : to_u32 _ = Done _ |- _ => apply to_u32_done in H; destruct H; subst
  end.

Lemma ofold_app {A S} (f : S -> A -> outcome S) l1 l2 s :
  ofold f (l1 ++ l2) s = obind (ofold f l1 s) (ofold f l2).
Proof.
  revert s. induction l1; simpl; intros; auto.
  destruct (f s a); simpl; auto.
Qed.

Lemma ofold_inv {A S} (P : S -> Prop) (f : S -> A -> outcome S) l :
  (forall s a s', In a l -> P s -> f s a = Done s' -> P s') ->
  forall s s', P s -> ofold f l s = Done s' -> P s'.
Proof.
  induction l; simpl; intros Hf s s' Hs H.
  - congruence.
  - odone. eapply IHl; [| | exact H]; eauto.
Qed.

(** Invariant that also tracks the elements processed so far. *)
Lemma ofold_inv_prefix {A S} (P : list A -> S -> Prop) (f : S -> A -> outcome S) l :
  (forall pre a post s s', l = pre ++ a :: post -> P pre s -> f s a = Done s' ->
     P (pre ++ [a]) s') ->
  forall s s', P [] s -> ofold f l s = Done s' -> P l s'.
Proof.
  intros Hf s s' H0 H.
  assert (G : forall post pre s, l = pre ++ post -> P pre s ->
              ofold f post s = Done s' -> P l s').
  { induction post; simpl; intros pre t Hl HP Hrun.
    - injection Hrun; intros; subst. now rewrite app_nil_r.
    - odone. apply (IHpost (pre ++ [a]) a0).
      + now rewrite <- app_assoc.
      + eapply Hf; eauto.
      + exact Hrun. }
  now apply (G l [] s).
Qed.

(** A loop never fails if no iteration does. *)
Lemma ofold_ok {A S} (P : S -> Prop) (f : S -> A -> outcome S) l :
  (forall s a, In a l -> P s -> exists s', f s a = Done s' /\ P s') ->
  forall s, P s -> exists s', ofold f l s = Done s' /\ P s'.
Proof.
  induction l; simpl; intros Hf s Hs; eauto.
  destruct (Hf s a (or_introl eq_refl) Hs) as (s1 & H1 & P1).
  rewrite H1; simpl. apply IHl; auto.
Qed.

Lemma ofold_ok_prefix {A S} (P : list A -> S -> Prop) (f : S -> A -> outcome S) l :
  (forall pre a post s, l = pre ++ a :: post -> P pre s ->
     exists s', f s a = Done s' /\ P (pre ++ [a]) s') ->
  forall s, P [] s -> exists s', ofold f l s = Done s' /\ P l s'.
Proof.
  intros Hf s H0.
  assert (G : forall post pre s, l = pre ++ post -> P pre s ->
              exists s', ofold f post s = Done s' /\ P l s').
  { induction post; simpl; intros pre t Hl HP.
    - exists t. split; auto. rewrite app_nil_r in Hl. now subst.
    - destruct (Hf pre a post t Hl HP) as (s1 & H1 & P1). rewrite H1. simpl.
      apply (IHpost (pre ++ [a])); auto. now rewrite <- app_assoc. }
  now apply (G l [] s).
Qed.

Lemma omap_length {A B} (f : A -> outcome B) l bs :
  omap f l = Done bs -> length bs = length l.
Proof.
  revert bs; induction l; simpl; intros; odone; simpl; auto.
Qed.
Lemma omap_nth {A B} (f : A -> outcome B) l bs :
  omap f l = Done bs -> forall i b, nth_error bs i = Some b ->
  exists a, nth_error l i = Some a /\ f a = Done b.
Proof.
  revert bs; induction l as [|x l IH]; simpl; intros bs H i b Hi; odone.
  - destruct i; discriminate.
  - destruct i; simpl in *; eauto. injection Hi; intros; subst; eauto.
Qed.
Lemma omap_nth' {A B} (f : A -> outcome B) l bs :
  omap f l = Done bs -> forall i a, nth_error l i = Some a ->
  exists b, nth_error bs i = Some b /\ f a = Done b.
Proof.
  revert bs; induction l as [|x l IH]; simpl; intros bs H i b Hi; odone.
  - destruct i; discriminate.
  - destruct i; simpl in *; eauto. injection Hi; intros; subst; eauto.
Qed.
Lemma omap_in {A B} (f : A -> outcome B) l bs b :
  omap f l = Done bs -> In b bs -> exists a, In a l /\ f a = Done b.
Proof.
  revert bs; induction l; simpl; intros; odone; simpl in *.
  - contradiction.
  - destruct H0 as [->|H0]; eauto.
    destruct (IHl _ Ha0 H0) as (x & Hx & Hf). eauto.
Qed.
Lemma omap_ok {A B} (f : A -> outcome B) l :
  (forall a, In a l -> exists b, f a = Done b) -> exists bs, omap f l = Done bs.
Proof.
  induction l; simpl; intros H; eauto.
  destruct (H a) as [b Hb]; auto. rewrite Hb; simpl.
  destruct IHl as [bs Hbs]; auto. rewrite Hbs; simpl; eauto.
Qed.
Lemma omap_ext {A B} (f g : A -> outcome B) l :
  (forall a, In a l -> f a = g a) -> omap f l = omap g l.
Proof.
  induction l; simpl; intros H; auto.
  rewrite (H a) by auto. rewrite IHl; auto.
Qed.
Lemma omap_map {A B C} (f : B -> outcome C) (g : A -> B) l :
  omap f (map g l) = omap (fun a => f (g a)) l.
Proof. induction l; simpl; auto. now rewrite IHl. Qed.
Lemma omap_done {A B} (f : A -> B) l : omap (fun a => Done (f a)) l = Done (map f l).
Proof. induction l; simpl; auto. now rewrite IHl. Qed.

(** ** Updating lists *)
Lemma lset_length {A} (l : list A) i a : length (lset l i a) = length l.
Proof. revert i; induction l; destruct i; simpl; auto. Qed.
Lemma nth_error_lset_eq {A} (l : list A) i a :
  i < length l -> nth_error (lset l i a) i = Some a.
Proof. revert i; induction l; destruct i; simpl; intros; try lia; auto. apply IHl; lia. Qed.
Lemma nth_error_lset_ne {A} (l : list A) i j a :
  i <> j -> nth_error (lset l i a) j = nth_error l j.
Proof. revert i j; induction l; destruct i, j; simpl; intros; try congruence; auto. Qed.
Lemma nth_error_lset {A} (l : list A) i j a :
  nth_error (lset l i a) j =
  if Nat.eqb i j then (if Nat.ltb i (length l) then Some a else None) else nth_error l j.
Proof.
  destruct (Nat.eqb_spec i j) as [->|n].
  - destruct (Nat.ltb_spec j (length l)).
    + now apply nth_error_lset_eq.
    + apply nth_error_None. rewrite lset_length; lia.
  - now apply nth_error_lset_ne.
Qed.
Lemma oset_done {A} (l l' : list A) i a :
  oset l i a = Done l' <-> i < length l /\ l' = lset l i a.
Proof.
  unfold oset. destruct (Nat.ltb_spec i (length l)); split; intros H'.
  - injection H'; intros; subst; auto.
  - destruct H' as [_ ->]; auto.
  - discriminate.
  - destruct H'; lia.
Qed.
Lemma oset_ok {A} (l : list A) i a : i < length l -> oset l i a = Done (lset l i a).
Proof. intros; now apply oset_done. Qed.
Lemma oget_ok {A} (l : list A) i : i < length l -> exists a, oget l i = Done a.
Proof.
  intros H. unfold oget. destruct (nth_error l i) eqn:E; eauto.
  apply nth_error_None in E; lia.
Qed.
Lemma nth_error_lt {A} (l : list A) i a : nth_error l i = Some a -> i < length l.
Proof. intros H. apply nth_error_Some. congruence. Qed.
Lemma nth_error_ex {A} (l : list A) i : i < length l -> exists a, nth_error l i = Some a.
Proof. intros H. apply nth_error_Some in H. destruct (nth_error l i); eauto; congruence. Qed.
Lemma nth_error_app_old {A} (l l' : list A) i a :
  nth_error l i = Some a -> nth_error (l ++ l') i = Some a.
Proof. intros H. rewrite nth_error_app1; auto. eapply nth_error_lt; eauto. Qed.
Lemma nth_error_app_new {A} (l : list A) a : nth_error (l ++ [a]) (length l) = Some a.
Proof. rewrite nth_error_app2, Nat.sub_diag; auto. Qed.
Lemma nth_error_snoc {A} (l : list A) x i a :
  nth_error (l ++ [x]) i = Some a ->
  (i < length l /\ nth_error l i = Some a) \/ (i = length l /\ a = x).
Proof.
  intros H. destruct (Nat.lt_ge_cases i (length l)).
  - left. split; auto. now rewrite nth_error_app1 in H.
  - rewrite nth_error_app2 in H by auto.
    destruct (i - length l) eqn:E; simpl in H.
    + right. split; [lia|congruence].
    + destruct n; discriminate.
Qed.
Lemma nth_error_seq n i k : nth_error (seq n k) i = if Nat.ltb i k then Some (n + i) else None.
Proof.
  revert n i; induction k; simpl; intros.
  - destruct i; auto.
  - destruct i; simpl.
    + f_equal; lia.
    + rewrite IHk. destruct (Nat.ltb_spec i k), (Nat.ltb_spec (S i) (S k)); auto; try lia.
      f_equal; lia.
Qed.
Lemma nth_error_combine {A B} (l : list A) (m : list B) i :
  nth_error (combine l m) i =
  match nth_error l i, nth_error m i with
  | Some a, Some b => Some (a, b) | _, _ => None end.
Proof.
  revert m i; induction l; destruct m, i; simpl; auto.
  - destruct (nth_error l i); auto.
Qed.
Lemma nth_error_ext {A} (l m : list A) :
  (forall i, nth_error l i = nth_error m i) -> l = m.
Proof.
  revert m; induction l; destruct m; intros H; auto.
  - specialize (H 0); discriminate.
  - specialize (H 0); discriminate.
  - f_equal.
    + specialize (H 0); simpl in H; congruence.
    + apply IHl. intros i. exact (H (S i)).
Qed.
Lemma nth_error_repeat {A} (a : A) n i :
  nth_error (repeat a n) i = if Nat.ltb i n then Some a else None.
Proof.
  revert i; induction n; destruct i; simpl; auto. rewrite IHn.
  destruct (Nat.ltb_spec i n), (Nat.ltb_spec (S i) (S n)); auto; lia.
Qed.

Lemma nth_error_skipn {A} n (l : list A) i : nth_error (skipn n l) i = nth_error l (n + i).
Proof.
  revert l i; induction n; simpl; intros; auto.
  destruct l; auto. destruct i; auto.
Qed.
Lemma nth_error_firstn {A} n (l : list A) i :
  nth_error (firstn n l) i = if Nat.ltb i n then nth_error l i else None.
Proof.
  revert l i; induction n; simpl; intros.
  - destruct i; auto.
  - destruct l; destruct i; simpl; auto.
    + destruct (_ <? _); auto.
    + rewrite IHn. destruct (Nat.ltb_spec i n), (Nat.ltb_spec (S i) (S n)); auto; lia.
Qed.

Lemma existsb_eqb x l : existsb (Nat.eqb x) l = true <-> In x l.
Proof.
  rewrite existsb_exists. split.
  - intros (y & Hy & E). apply Nat.eqb_eq in E. now subst.
  - intros H. exists x. split; auto. apply Nat.eqb_refl.
Qed.
Lemma existsb_eqb_false x l : existsb (Nat.eqb x) l = false <-> ~ In x l.
Proof.
  rewrite <- existsb_eqb. destruct (existsb _ l); split; congruence.
Qed.

Lemma Forall2_length {A B} (R : A -> B -> Prop) l m : Forall2 R l m -> length l = length m.
Proof. induction 1; simpl; auto. Qed.
Lemma Forall2_impl {A B} (R S : A -> B -> Prop) l m :
  (forall a b, R a b -> S a b) -> Forall2 R l m -> Forall2 S l m.
Proof. induction 2; constructor; auto. Qed.
Lemma Forall2_nth {A B} (R : A -> B -> Prop) l m i a b :
  Forall2 R l m -> nth_error l i = Some a -> nth_error m i = Some b -> R a b.
Proof.
  intros H; revert i; induction H; intros [|i]; simpl; intros; try discriminate; eauto.
  congruence.
Qed.
Lemma Forall2_nth_intro {A B} (R : A -> B -> Prop) l m :
  length l = length m ->
  (forall i a b, nth_error l i = Some a -> nth_error m i = Some b -> R a b) -> Forall2 R l m.
Proof.
  revert m; induction l; destruct m; simpl; intros Hl H; try discriminate; constructor.
  - apply (H 0); auto.
  - apply IHl; auto. intros i x y. apply (H (S i)).
Qed.
