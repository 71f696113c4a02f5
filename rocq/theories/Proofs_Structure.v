(** The structures of R and of the Householder vectors *)
From Coq Require Import List Arith Bool Lia ZArith Permutation Sorted.
From Verif Require Import Outcome Lib ModelSparse Spec_Sparse ModelForest Spec_Forest Proofs_Forest
  Proofs_Convert ModelCholesky Proofs_Columns Proofs_Factorize Proofs_Counts.
Import ListNotations.
Local Open Scope nat_scope.

(* ----- sorting ----- *)

Lemma insert_perm x l : Permutation (insert_nat x l) (x :: l).
Proof.
  induction l as [|y l IH]; [reflexivity|]. cbn [insert_nat]. destruct (x <=? y); [reflexivity|].
  rewrite IH. apply perm_swap.
Qed.
Lemma sort_perm l : Permutation (sort_nats l) l.
Proof. induction l as [|x l IH]; [reflexivity|]. cbn. rewrite insert_perm, IH. reflexivity. Qed.
Lemma insert_sorted x l : StronglySorted le l -> StronglySorted le (insert_nat x l).
Proof.
  induction 1 as [|y l S IH F]; [repeat constructor|]. cbn [insert_nat]. destruct (Nat.leb_spec x y).
  - constructor; [constructor; assumption|]. constructor; [assumption|]. rewrite Forall_forall in *. intros z Hz.
    specialize (F z Hz). lia.
  - constructor; [exact IH|]. rewrite Forall_forall in *. intros z Hz. apply (Permutation_in _ (insert_perm x l)) in Hz.
    destruct Hz as [<-|Hz]; [lia|]. apply F. exact Hz.
Qed.
Lemma sort_sorted l : StronglySorted le (sort_nats l).
Proof. induction l as [|x l IH]; [constructor|]. cbn. apply insert_sorted. exact IH. Qed.
Lemma sort_In x l : In x (sort_nats l) <-> In x l.
Proof. split; apply Permutation_in; [|symmetry]; apply sort_perm. Qed.
Lemma sort_length l : length (sort_nats l) = length l.
Proof. apply Permutation_length, sort_perm. Qed.
Lemma sort_strict l : NoDup l -> StronglySorted lt (sort_nats l).
Proof.
  intros N. assert (N' : NoDup (sort_nats l)) by (eapply Permutation_NoDup; [symmetry; apply sort_perm|exact N]).
  pose proof (sort_sorted l) as S. induction S as [|x k S IH F]; [constructor|]. inversion N' as [|? ? Nx Nk]; subst.
  constructor; [apply IH; exact Nk|]. rewrite Forall_forall in *. intros z Hz. specialize (F z Hz).
  assert (z <> x) by (intros ->; contradiction). lia.
Qed.

Lemma NoDup_split_unique {A} (l a b : list A) x c d : NoDup l -> l = a ++ x :: c -> l = b ++ x :: d -> a = b.
Proof.
  intros N E1 E2. assert (Ea : nth_error l (length a) = Some x) by (rewrite E1, nth_error_app2, Nat.sub_diag by lia; reflexivity).
  assert (Eb : nth_error l (length b) = Some x) by (rewrite E2, nth_error_app2, Nat.sub_diag by lia; reflexivity).
  assert (E : length a = length b) by (apply (proj1 (NoDup_nth_error l) N); [eapply nth_error_lt; exact Ea|congruence]).
  transitivity (firstn (length a) l).
  - rewrite E1, firstn_app, firstn_all, Nat.sub_diag. cbn. symmetry. apply app_nil_r.
  - rewrite E, E2, firstn_app, firstn_all, Nat.sub_diag. cbn. apply app_nil_r.
Qed.

Lemma skipn_next {A} k (l : list A) y ys : skipn k l = y :: ys -> skipn (k + 1) l = ys.
Proof.
  revert l; induction k as [|k IH]; intros [|x l] H; try discriminate.
  - injection H as _ ->. reflexivity.
  - apply IH. exact H.
Qed.

Lemma nth_error_at {A} (l : list A) x j : length l = j -> nth_error (l ++ [x]) j = Some x.
Proof. intros <-. rewrite nth_error_app2, Nat.sub_diag by lia. reflexivity. Qed.

Section Structure.
Context (s : structure) (m n : nat) (ps : list (option nat)) (Ln : length ps = n)
  (Hup : forall u p, parent ps u p -> u < p < n)
  (fcs : list (option nat)) (perm : list (option nat)) (rho : nat -> nat) (counts : list nat).
Notation below := (below_node ps).
Notation first i f := (nth_error fcs i = Some (Some f)).
Context
  (Hcol : forall j, j < n -> exists rows, index_column s j = Done rows /\ forall i, In i rows <-> structural s i j)
  (Hent : forall i j, structural s i j -> i < m /\ j < n /\ exists f, first i f /\ below f j)
  (Hfst : forall i f, first i f -> structural s i f)
  (Hpar : forall k j, parent ps k j -> exists i f, structural s i j /\ first i f /\ below f k)
  (Lperm : length perm = m + n)
  (Hrho : forall i, i < m -> nth_error perm i = Some (Some (rho i)) /\ rho i < m)
  (Hrhob : forall i, i < m -> rho i < n -> exists f, first i f /\ below f (rho i))
  (Hmn : n <= m)
  (Hcnt : forall j, j < n -> exists l, nth_error counts j = Some (S (length l)) /\ NoDup l /\
      forall k, In k l <-> k <> j /\ below k j /\ exists f, (f <> j /\ exists i, first i f /\ structural s i j) /\ below f k)
  (Lcnt : length counts = n).

Lemma s_le u v : below u v -> u <= v.
Proof. induction 1 as [|u p v Hp _ IH]; [lia|]. apply Hup in Hp. lia. Qed.
Lemma s_eq u v : below u v -> below v u -> u = v.
Proof. intros H1 H2. apply s_le in H1. apply s_le in H2. lia. Qed.
Lemma s_order x u v : below x u -> below x v -> u <= v -> below u v.
Proof.
  intros H1 H2 Hle. destruct (below_compare _ _ _ H1 _ H2) as [H|H]; [exact H|].
  pose proof (s_le _ _ H). replace v with u by lia. constructor.
Qed.

(** The rows above the diagonal of column [j] of R *)
Definition above (j k : nat) : Prop := k < j /\ exists i f, structural s i j /\ first i f /\ below f k.
(** The rows of Householder vector [k] *)
Definition carried (k r : nat) : Prop := r = k \/ (k < r /\ exists i f, first i f /\ below f k /\ rho i = r).

Lemma first_lt i f : first i f -> i < m /\ f < n.
Proof. intros H. apply Hfst in H. destruct (Hent _ _ H) as (H1 & H2 & _). auto. Qed.

Lemma above_below j k : above j k -> below k j.
Proof.
  intros (Hlt & i & f & H1 & H2 & H3). destruct (Hent _ _ H1) as (_ & _ & f' & F1 & F2).
  assert (f' = f) by congruence. subst f'. eapply s_order; [exact H3|exact F2|lia].
Qed.

Lemma carried_bound k r : k < n -> carried k r -> k <= r < m.
Proof.
  intros Hk [->|(H & i & f & H1 & _ & <-)]; [lia|]. destruct (first_lt _ _ H1) as [Hi _]. destruct (Hrho i Hi). lia.
Qed.

(** A carried row is an ancestor, or not one of the first [n]. *)
Lemma carried_up k r : carried k r -> r < n -> below k r.
Proof.
  intros [->|(H & i & f & H1 & H2 & <-)] Hr; [constructor|]. destruct (first_lt _ _ H1) as [Hi _].
  destruct (Hrhob i Hi Hr) as (f' & F1 & F2). assert (f' = f) by congruence. subst f'.
  eapply s_order; [exact H2|exact F2|lia].
Qed.

Lemma counts_above j l : j < n -> NoDup l -> (forall k, In k l <-> above j k) -> nth_error counts j = Some (S (length l)).
Proof.
  intros Hj Nl Hl. destruct (Hcnt j Hj) as (l' & E & Nl' & Hl'). rewrite E. f_equal. f_equal.
  apply Permutation_length. apply NoDup_Permutation; [exact Nl'|exact Nl|]. intros k. rewrite Hl', Hl. split.
  - intros (H1 & H2 & f & (_ & i & H4 & H5) & H6). split; [apply s_le in H2; lia|]. exists i, f. auto.
  - intros H. pose proof (above_below _ _ H) as B. destruct H as (Hlt & i & f & H1 & H2 & H3).
    split; [lia|]. split; [exact B|]. exists f. split; [|exact H3]. split; [apply s_le in H3; lia|]. exists i. auto.
Qed.

(** The marker of column [j]: itself, the stack and the Householder rows *)
Definition marked (j : nat) (M : nat -> Prop) (marker : list nat) : Prop := length marker = m + n /\
  forall x, x < m + n -> exists v, nth_error marker x = Some v /\ v <= j + 1 /\ (v = j + 1 <-> M x).

Lemma marked_ext j (M M' : nat -> Prop) marker : (forall x, M x <-> M' x) -> marked j M marker -> marked j M' marker.
Proof.
  intros H (L & K). split; [exact L|]. intros x Hx. destruct (K x Hx) as (v & E & Hv & Hm). exists v. rewrite <- H. auto.
Qed.

Lemma marked_set j M marker k : k < m + n -> marked j M marker -> marked j (fun x => x = k \/ M x) (lset marker k (j + 1)).
Proof.
  intros Hk (L & K). split; [rewrite lset_length; exact L|]. intros x Hx. rewrite nth_error_lset, L.
  destruct (Nat.ltb_spec k (m + n)); [|lia]. destruct (Nat.eqb_spec k x) as [<-|N].
  - exists (j + 1). split; [reflexivity|]. split; [lia|]. split; auto.
  - destruct (K x Hx) as (v & E & Hv & Hm). exists v. split; [exact E|]. split; [exact Hv|]. rewrite Hm.
    split; [auto|]. intros [->|]; [congruence|assumption].
Qed.

Lemma marked_get j M marker k : k < m + n -> marked j M marker -> exists v, oget marker k = Done v /\
  (v =? j + 1 = true <-> M k) /\ (v <? j + 1 = true <-> ~ M k).
Proof.
  intros Hk (L & K). destruct (K k Hk) as (v & E & Hv & Hm). exists v. split; [apply oget_done; exact E|].
  rewrite Nat.eqb_eq, Nat.ltb_lt. split; [exact Hm|]. rewrite <- Hm. lia.
Qed.

Lemma climb_path_ok j (M : nat -> Prop) : j < n -> forall fuel k stack marker, k < n -> n < fuel + k ->
  (forall x, M x -> j <= x) ->
  marked j (fun x => M x \/ In x stack) marker -> NoDup stack -> (forall x, In x stack -> x < j) ->
  (forall x, below k x -> In x stack -> forall y, below x y -> y < j -> In y stack) ->
  exists stack' marker', climb_path fuel ps j (Some k) stack marker = Done (stack', marker') /\
    marked j (fun x => M x \/ In x stack') marker' /\ NoDup stack' /\
    forall x, In x stack' <-> In x stack \/ (x < j /\ below k x).
Proof.
  intros Hj. induction fuel as [|fuel IH]; intros k stack marker Hk Hfu HM Mk Ns Hs Cl; [lia|]. cbn [climb_path].
  destruct (Nat.leb_spec j k) as [Hle|Hlt].
  { exists stack, marker. split; [reflexivity|]. split; [exact Mk|]. split; [exact Ns|]. intros x. split; [auto|].
    intros [|[H1 H2]]; [assumption|]. apply s_le in H2. lia. }
  destruct (marked_get j _ marker k ltac:(lia) Mk) as (v & Ev & V1 & _). rewrite Ev. cbn [obind].
  destruct (v =? j + 1) eqn:Et.
  { destruct (proj1 V1 eq_refl) as [Hm|Hi]; [specialize (HM k Hm); lia|].
    exists stack, marker. split; [reflexivity|]. split; [exact Mk|]. split; [exact Ns|]. intros x. split; [auto|].
    intros [|[H1 H2]]; [assumption|]. apply (Cl k); [constructor|exact Hi|exact H2|exact H1]. }
  assert (Nk : ~ In k stack) by (intros Hi; assert (false = true) by (apply V1; right; exact Hi); discriminate).
  rewrite oset_ok by (rewrite (proj1 Mk); lia). cbn [obind]. destruct (nth_error_ex ps k) as [o Ho]; [lia|].
  rewrite (proj2 (oget_done _ _ _) Ho). cbn [obind].
  assert (Mk' : marked j (fun x => M x \/ In x (k :: stack)) (lset marker k (j + 1))).
  { eapply marked_ext; [|apply marked_set; [|exact Mk]; lia]. intros x. cbn [In]. split; [intros [->|[]]; auto|].
    intros [|[<-|]]; auto. }
  assert (Ns' : NoDup (k :: stack)) by (constructor; assumption).
  destruct o as [p|].
  - destruct (Hup _ _ Ho) as [Hkp Hpn].
    destruct (IH p (k :: stack) (lset marker k (j + 1))) as (stack' & marker' & E & M' & N' & H'); auto; [lia| | |].
    + intros x [<-|Hi]; auto.
    + intros x Bx [<-|Hi] y By Hy; [apply s_le in Bx; lia|]. right. apply (Cl x); auto. eapply below_step; eassumption.
    + exists stack', marker'. split; [exact E|]. split; [exact M'|]. split; [exact N'|]. intros x. rewrite H'. cbn [In]. split.
      * intros [[<-|]|[H1 H2]]; [right; split; [exact Hlt|constructor]|auto|]. right. split; [exact H1|]. eapply below_step; eassumption.
      * intros [|[H1 H2]]; [auto|]. destruct (below_inv _ _ _ _ Ho H2) as [->|H3]; auto.
  - exists (k :: stack), (lset marker k (j + 1)). split; [destruct fuel; [lia|reflexivity]|]. split; [exact Mk'|]. split; [exact Ns'|].
    intros x. cbn [In]. split.
    + intros [<-|]; [right; split; [exact Hlt|constructor]|auto].
    + intros [|[H1 H2]]; [auto|]. rewrite (below_root _ _ _ Ho H2). auto.
Qed.

Lemma visits_ok j rows marker : j < n -> (forall i, In i rows <-> structural s i j) -> marked j (fun x => x = j) marker ->
  exists stack marker' hj, ofold (visit_row ps fcs perm j) rows ([], marker, [j]) = Done (stack, marker', hj) /\
    marked j (fun x => In x stack \/ In x hj) marker' /\ NoDup stack /\ (forall x, In x stack <-> above j x) /\
    NoDup hj /\ (forall r, In r hj <-> r = j \/ (j < r /\ exists i, structural s i j /\ rho i = r)).
Proof.
  intros Hj Hrows Mk.
  destruct (ofold_ok_prefix (fun pr (st : list nat * list nat * list nat) => let '(stack, marker, hj) := st in
      marked j (fun x => In x hj \/ In x stack) marker /\ NoDup stack /\
      (forall x, In x stack <-> x < j /\ exists i f, In i pr /\ first i f /\ below f x) /\
      NoDup hj /\ (forall r, In r hj <-> r = j \/ (j < r /\ exists i, In i pr /\ rho i = r)))
    (visit_row ps fcs perm j) rows) with (s := (@nil nat, marker, [j])) as ([[stack marker'] hj] & E & M' & N1 & H1 & N2 & H2).
  - intros pr i su [[stack mk] hj] El (M1 & Ns & Hs & Nh & Hh).
    assert (Hi : structural s i j) by (apply Hrows; rewrite El; apply in_or_app; right; left; reflexivity).
    destruct (Hent _ _ Hi) as (Him & _ & f & Hf & Bf). unfold visit_row.
    rewrite (proj2 (oget_done _ _ _) Hf). cbn [obind]. rewrite Ln. destruct (first_lt _ _ Hf) as [_ Hfn].
    destruct (climb_path_ok j (fun x => In x hj) Hj (S n) f stack mk) as (stack' & mk' & E & M2 & Ns' & Hs'); auto.
    { lia. }
    { intros x Hx. apply Hh in Hx. lia. }
    { intros x Hx. apply Hs in Hx. lia. }
    { intros x _ Hx y By Hy. apply Hs in Hx. destruct Hx as (_ & i' & f' & P1 & P2 & P3). apply Hs. split; [exact Hy|].
      exists i', f'. split; [exact P1|]. split; [exact P2|]. eapply below_trans; eassumption. }
    rewrite E. cbn [obind]. destruct (Hrho i Him) as [Ep Hrm]. rewrite (proj2 (oget_done _ _ _) Ep). cbn [obind ounwrap].
    assert (Hst : forall x, In x stack' <-> x < j /\ exists i0 f0, In i0 (pr ++ [i]) /\ first i0 f0 /\ below f0 x).
    { intros x. rewrite Hs', Hs. split.
      - intros [(P1 & i' & f' & P2 & P3 & P4)|[P1 P2]]; (split; [exact P1|]).
        + exists i', f'. split; [apply in_or_app; left; exact P2|auto].
        + exists i, f. split; [apply in_or_app; right; left; reflexivity|auto].
      - intros (P1 & i' & f' & P2 & P3 & P4). apply in_app_or in P2. destruct P2 as [P2|[<-|[]]].
        + left. split; [exact P1|]. exists i', f'. auto.
        + right. split; [exact P1|]. assert (f' = f) by congruence. subst f'. exact P4. }
    assert (Skip : (forall x, rho i = x -> j < x -> In x hj) ->
      forall r, In r hj <-> r = j \/ (j < r /\ exists i0, In i0 (pr ++ [i]) /\ rho i0 = r)).
    { intros Sk r. rewrite Hh. split.
      - intros [|(P1 & i' & P2 & P3)]; [auto|]. right. split; [exact P1|]. exists i'. split; [apply in_or_app; left; exact P2|exact P3].
      - intros [|(P1 & i' & P2 & P3)]; [auto|]. apply in_app_or in P2. destruct P2 as [P2|[<-|[]]].
        + right. split; [exact P1|]. exists i'. auto.
        + apply Hh. apply Sk; assumption. }
    destruct (Nat.ltb_spec j (rho i)) as [Hlt|Hge].
    + destruct (marked_get j _ mk' (rho i) ltac:(lia) M2) as (v & Ev & _ & V). rewrite Ev. cbn [obind].
      destruct (v <? j + 1) eqn:Et.
      * assert (Nr : ~ (In (rho i) hj \/ In (rho i) stack')) by (apply V; reflexivity).
        rewrite oset_ok by (rewrite (proj1 M2); lia). cbn [obind]. eexists; split; [reflexivity|]. cbn beta iota. split.
        { eapply marked_ext; [|apply marked_set; [|exact M2]; lia]. intros x. rewrite in_app_iff. cbn [In].
          split; [intros [->|[]]; auto|]. intros [[|[<-|[]]]|]; auto. }
        split; [exact Ns'|]. split; [exact Hst|]. split.
        { apply NoDup_app_intro; [exact Nh|repeat constructor; intros []|]. intros x Hx [<-|[]]. apply Nr. left; exact Hx. }
        intros r. rewrite in_app_iff, Hh. cbn [In]. split.
        -- intros [[|(P1 & i' & P2 & P3)]|[<-|[]]]; [auto| |].
           ++ right. split; [exact P1|]. exists i'. split; [apply in_or_app; left; exact P2|exact P3].
           ++ right. split; [exact Hlt|]. exists i. split; [apply in_or_app; right; left; reflexivity|reflexivity].
        -- intros [|(P1 & i' & P2 & P3)]; [auto|]. apply in_app_or in P2. destruct P2 as [P2|[<-|[]]]; [|auto].
           left. right. split; [exact P1|]. exists i'. auto.
      * eexists; split; [reflexivity|]. cbn beta iota. split; [exact M2|]. split; [exact Ns'|]. split; [exact Hst|]. split; [exact Nh|].
        apply Skip. intros x <- _. destruct (in_dec Nat.eq_dec (rho i) hj) as [|Nr]; [assumption|].
        exfalso. assert (false = true); [|discriminate]. apply V. intros [|Hx]; [contradiction|]. apply Hst in Hx. lia.
    + eexists; split; [reflexivity|]. cbn beta iota. split; [exact M2|]. split; [exact Ns'|]. split; [exact Hst|]. split; [exact Nh|].
      apply Skip. intros; lia.
  - split; [|split; [constructor|split; [|split; [repeat constructor; intros []|]]]].
    + eapply marked_ext; [|exact Mk]. intros x. cbn [In]. split; [intros ->; auto|]. intros [[|[]]|[]]; auto.
    + intros x. split; [intros []|]. intros (_ & i & f & [] & _).
    + intros r. cbn [In]. split; [intros [|[]]; auto|]. intros [|(_ & i & [] & _)]; auto.
  - exists stack, marker', hj. split; [exact E|]. split; [eapply marked_ext; [|exact M']; intros x; tauto|].
    split; [exact N1|]. split; [|split; [exact N2|]].
    + intros x. rewrite H1. unfold above. split; intros (P1 & i & f & P2 & P3); (split; [exact P1|]); exists i, f;
        (split; [apply Hrows; exact P2|exact P3]).
    + intros r. rewrite H2. split; (intros [|(P1 & i & P2 & P3)]; [auto|]); right; (split; [exact P1|]); exists i;
        (split; [apply Hrows; exact P2|exact P3]).
Qed.

(** One child's rows are added. *)
Lemma carry_ok j k stack h marker hj : j < n -> parent ps k j -> In k stack -> (forall x, In x stack -> x < j) ->
  (forall r, In r h <-> carried k r) -> marked j (fun x => In x stack \/ In x hj) marker -> NoDup hj -> In j hj ->
  exists marker' hj', ofold (carry_row j) h (marker, hj) = Done (marker', hj') /\
    marked j (fun x => In x stack \/ In x hj') marker' /\ NoDup hj' /\
    forall r, In r hj' <-> In r hj \/ (j < r /\ carried k r).
Proof.
  intros Hj Hp Hk Hs Hh Mk Nh Hjh. destruct (Hup _ _ Hp) as [Hkj _].
  destruct (ofold_ok_prefix (fun pr (st : list nat * list nat) => let '(marker, hj') := st in
      marked j (fun x => In x stack \/ In x hj') marker /\ NoDup hj' /\ forall r, In r hj' <-> In r hj \/ (j < r /\ In r pr))
    (carry_row j) h) with (s := (marker, hj)) as ([marker' hj'] & E & M' & N' & H').
  - intros pr r su [mk hj'] El (M1 & N1 & H1). unfold carry_row.
    assert (Hr : carried k r) by (apply Hh; rewrite El; apply in_or_app; right; left; reflexivity).
    pose proof (carried_bound k r ltac:(lia) Hr) as Br.
    destruct (marked_get j _ mk r ltac:(lia) M1) as (v & Ev & _ & V). rewrite Ev. cbn [obind].
    assert (Keep : (j < r -> In r hj') -> forall x, In x hj' <-> In x hj \/ (j < x /\ In x (pr ++ [r]))).
    { intros Kp x. rewrite H1, in_app_iff. cbn [In]. split; [tauto|]. intros [|(P1 & [P2|[<-|[]]])]; [auto|auto|].
      apply H1. apply Kp. exact P1. }
    destruct (v <? j + 1) eqn:Et.
    + assert (Nr : ~ (In r stack \/ In r hj')) by (apply V; reflexivity).
      assert (Hlt : j < r).
      { destruct (Nat.lt_ge_cases j r) as [|Hge]; [assumption|]. exfalso. apply Nr.
        pose proof (carried_up _ _ Hr ltac:(lia)) as B. destruct (below_inv _ _ _ _ Hp B) as [->|B']; [left; exact Hk|].
        apply s_le in B'. assert (r = j) by lia. subst r. right. apply H1. left; exact Hjh. }
      rewrite oset_ok by (rewrite (proj1 M1); lia). cbn [obind]. eexists; split; [reflexivity|]. cbn beta iota. split.
      { eapply marked_ext; [|apply marked_set; [|exact M1]; lia]. intros x. rewrite in_app_iff. cbn [In].
        split; [intros [->|[]]; auto|]. intros [|[|[<-|[]]]]; auto. }
      split.
      { apply NoDup_app_intro; [exact N1|repeat constructor; intros []|]. intros x Hx [<-|[]]. apply Nr. right; exact Hx. }
      intros x. rewrite !in_app_iff, H1. cbn [In]. split.
      * intros [[|[P1 P2]]|[<-|[]]]; auto.
      * intros [|(P1 & [P2|[<-|[]]])]; auto.
    + eexists; split; [reflexivity|]. cbn beta iota. split; [exact M1|]. split; [exact N1|]. apply Keep. intros Hlt.
      destruct (in_dec Nat.eq_dec r hj') as [|Nr]; [assumption|]. exfalso. assert (false = true); [|discriminate].
      apply V. intros [Hx|]; [|contradiction]. apply Hs in Hx. lia.
  - split; [exact Mk|]. split; [exact Nh|]. intros r. cbn [In]. tauto.
  - exists marker', hj'. split; [exact E|]. split; [exact M'|]. split; [exact N'|]. intros r. rewrite H'.
    split; (intros [|[P1 P2]]; [auto|]); right; (split; [exact P1|]); apply Hh; exact P2.
Qed.

Lemma pops_ok j stack hs base rest marker hj : j < n -> length stack <= length rest -> NoDup stack ->
  (forall x, In x stack <-> above j x) ->
  (forall k, k < j -> exists h, nth_error hs k = Some h /\ forall r, In r h <-> carried k r) ->
  marked j (fun x => In x stack \/ In x hj) marker -> NoDup hj ->
  (forall r, In r hj <-> r = j \/ (j < r /\ exists i, structural s i j /\ rho i = r)) ->
  exists marker' hj', ofold (pop_column ps hs j) stack (base ++ rest, length base, marker, hj) =
      Done (base ++ stack ++ skipn (length stack) rest, length base + length stack, marker', hj') /\
    marked j (fun x => In x stack \/ In x hj') marker' /\ NoDup hj' /\ forall r, In r hj' <-> carried j r.
Proof.
  intros Hj Hlen Ns Hs Hhs Mk Nh Hh.
  destruct (ofold_ok_prefix (fun pr (st : list nat * nat * list nat * list nat) => let '(ri, idx, marker, hj') := st in
      ri = base ++ pr ++ skipn (length pr) rest /\ idx = length base + length pr /\
      marked j (fun x => In x stack \/ In x hj') marker /\ NoDup hj' /\
      forall r, In r hj' <-> In r hj \/ (j < r /\ exists k, In k pr /\ parent ps k j /\ carried k r))
    (pop_column ps hs j) stack) with (s := (base ++ rest, length base, marker, hj))
    as ([[[ri idx] marker'] hj'] & E & Eri & Eidx & M' & N' & H').
  - intros pr k su [[[ri idx] mk] hj'] El (Eri & Eidx & M1 & N1 & H1). unfold pop_column.
    assert (Hk : In k stack) by (rewrite El; apply in_or_app; right; left; reflexivity).
    pose proof (proj1 (Hs k) Hk) as [Hkj _].
    assert (Llen : length pr < length rest).
    { rewrite El, app_length in Hlen. cbn [length] in Hlen. lia. }
    assert (Eset : oset ri idx k = Done (base ++ (pr ++ [k]) ++ skipn (length (pr ++ [k])) rest)).
    { destruct (skipn (length pr) rest) as [|y ys] eqn:Esk.
      - assert (length (skipn (length pr) rest) = 0) by (rewrite Esk; reflexivity). rewrite skipn_length in H. lia.
      - rewrite Eri, Eidx. rewrite oset_ok by (rewrite !app_length; cbn [length]; lia).
        rewrite lset_app2. rewrite <- (Nat.add_0_r (length pr)), lset_app2. cbn [lset].
        rewrite app_length. cbn [length]. f_equal. f_equal. rewrite <- app_assoc. cbn [app]. f_equal. f_equal.
        assert (Esk' : skipn (length pr + 1) rest = ys).
        { exact (skipn_next _ _ _ _ Esk). }
        symmetry. exact Esk'. }
    rewrite Eset. cbn [obind]. destruct (nth_error_ex ps k) as [o Ho]; [lia|]. rewrite (proj2 (oget_done _ _ _) Ho). cbn [obind].
    assert (Eidx' : idx + 1 = length base + length (pr ++ [k])) by (rewrite app_length; cbn [length]; lia).
    assert (Skip : ~ parent ps k j ->
      forall r, In r hj' <-> In r hj \/ (j < r /\ exists k0, In k0 (pr ++ [k]) /\ parent ps k0 j /\ carried k0 r)).
    { intros Np r. rewrite H1. split; (intros [|(P1 & k' & P2 & P3)]; [auto|]); right; (split; [exact P1|]); exists k'.
      - split; [apply in_or_app; left; exact P2|exact P3].
      - apply in_app_or in P2. destruct P2 as [P2|[<-|[]]]; [auto|]. exfalso. apply Np. apply P3. }
    destruct (match o with Some p => p =? j | None => false end) eqn:Et.
    + destruct o as [p|]; [|discriminate]. apply Nat.eqb_eq in Et. subst p.
      destruct (Hhs k Hkj) as (h & Eh & Hhk). rewrite (proj2 (oget_done _ _ _) Eh). cbn [obind].
      destruct (carry_ok j k stack h mk hj' Hj Ho Hk) as (mk' & hj2 & E2 & M2 & N2 & H2); auto.
      { intros x Hx. apply Hs in Hx. apply Hx. }
      { apply H1. left. apply Hh. left; reflexivity. }
      rewrite E2. cbn [obind]. eexists; split; [reflexivity|]. cbn beta iota. split; [reflexivity|]. split; [exact Eidx'|].
      split; [exact M2|]. split; [exact N2|]. intros r. rewrite H2, H1. split.
      * intros [[|(P1 & k' & P2 & P3)]|[P1 P2]]; [auto| |]; right; (split; [exact P1|]).
        -- exists k'. split; [apply in_or_app; left; exact P2|exact P3].
        -- exists k. split; [apply in_or_app; right; left; reflexivity|]. split; [exact Ho|exact P2].
      * intros [|(P1 & k' & P2 & P3 & P4)]; [auto|]. apply in_app_or in P2. destruct P2 as [P2|[<-|[]]].
        -- left. right. split; [exact P1|]. exists k'. auto.
        -- right. auto.
    + eexists; split; [reflexivity|]. cbn beta iota. split; [reflexivity|]. split; [exact Eidx'|].
      split; [exact M1|]. split; [exact N1|]. apply Skip. unfold parent. rewrite Ho. intros [= ->].
      rewrite Nat.eqb_refl in Et. discriminate.
  - split; [reflexivity|]. split; [cbn [length]; lia|]. split; [exact Mk|]. split; [exact Nh|]. intros r. split; [auto|].
    intros [|(_ & k & [] & _)]; auto.
  - exists marker', hj'. rewrite E, Eri, Eidx. split; [reflexivity|]. split; [exact M'|]. split; [exact N'|].
    intros r. rewrite H', Hh. unfold carried at 2. split.
    + intros [[->|(P1 & i & P2 & P3)]|(P1 & k & P2 & P3 & P4)]; [auto| |]; right; (split; [exact P1|]).
      * destruct (Hent _ _ P2) as (_ & _ & f & F1 & F2). exists i, f. auto.
      * destruct P4 as [->|(_ & i & f & F1 & F2 & F3)]; [apply Hup in P3; lia|]. exists i, f. split; [exact F1|].
        split; [|exact F3]. eapply below_trans; [exact F2|]. eapply below_step; [exact P3|constructor].
    + intros [->|(P1 & i & f & F1 & F2 & F3)]; [auto|]. destruct (Nat.eq_dec f j) as [->|N].
      * left. right. split; [exact P1|]. exists i. split; [apply Hfst; exact F1|exact F3].
      * right. split; [exact P1|]. apply below_children in F2. destruct F2 as [->|(c & Hc & Bc)]; [congruence|].
        exists c. destruct (Hup _ _ Hc) as [Hcj _]. split; [|split; [exact Hc|]].
        -- apply Hs. split; [exact Hcj|]. destruct (Hpar _ _ Hc) as (i' & f' & G1 & G2 & G3). exists i', f'. auto.
        -- right. split; [lia|]. exists i, f. auto.
Qed.

(** R's columns and the Householder vectors' before column [j] *)
Record columns (j : nat) (Rs hs : list (list nat)) : Prop := Columns {
  cl_r : length Rs = j;
  cl_h : length hs = j;
  cl_count : forall k c, nth_error Rs k = Some c -> nth_error counts k = Some (length c);
  cl_rcol : forall k, k < j -> exists t, nth_error Rs k = Some (t ++ [k]) /\ StronglySorted lt t /\ forall x, In x t <-> above k x;
  cl_hcol : forall k, k < j -> exists h, nth_error hs k = Some h /\ NoDup h /\ forall r, In r h <-> carried k r
}.

Lemma counts_prefix Rs : (forall k c, nth_error Rs k = Some c -> nth_error counts k = Some (length c)) ->
  length Rs <= n -> map (@length nat) Rs = firstn (length Rs) counts.
Proof.
  intros H HL. apply nth_error_ext. intros k. rewrite nth_error_map. destruct (Nat.lt_ge_cases k (length Rs)) as [Hk|Hk].
  - destruct (nth_error_ex Rs k Hk) as [c Hc]. rewrite Hc. cbn. rewrite <- (firstn_skipn (length Rs) counts) in H.
    specialize (H k c Hc). rewrite nth_error_app1 in H by (rewrite firstn_length; lia). congruence.
  - rewrite (proj2 (nth_error_None Rs k)) by lia. cbn. symmetry. apply nth_error_None. rewrite firstn_length. lia.
Qed.

Lemma column_structure_ok j Rs hs rest marker : j < n -> columns j Rs hs ->
  length rest = list_sum (skipn j counts) -> length marker = m + n -> (forall x v, nth_error marker x = Some v -> v <= j) ->
  exists Rs' hs' rest' marker',
    structure_column s ps fcs perm counts (concat Rs ++ rest, marker, length (concat Rs), hs) j =
      Done (concat Rs' ++ rest', marker', length (concat Rs'), hs') /\
    columns (S j) Rs' hs' /\ length rest' = list_sum (skipn (S j) counts) /\ length marker' = m + n /\
    (forall x v, nth_error marker' x = Some v -> v <= S j).
Proof.
  intros Hj [C1 C2 C3 C4 C5] Lrest Lm Hm. unfold structure_column.
  rewrite oset_ok by lia. cbn [obind]. destruct (Hcol j Hj) as (rows & Er & Hr). rewrite Er. cbn [obind].
  assert (Mk : marked j (fun x => x = j) (lset marker j (j + 1))).
  { split; [rewrite lset_length; exact Lm|]. intros x Hx. rewrite nth_error_lset, Lm. destruct (Nat.ltb_spec j (m + n)); [|lia].
    destruct (Nat.eqb_spec j x) as [<-|N].
    - exists (j + 1). split; [reflexivity|]. split; [lia|]. split; auto.
    - destruct (nth_error_ex marker x) as [v Ev]; [lia|]. exists v. split; [exact Ev|]. specialize (Hm _ _ Ev). split; [lia|].
      split; [lia|congruence]. }
  destruct (visits_ok j rows _ Hj Hr Mk) as (stack & mk & hj & Ev & M1 & Ns & Hs & Nh & Hh). rewrite Ev. cbn [obind].
  pose proof (counts_above j stack Hj Ns Hs) as Ec.
  assert (Esk : list_sum (skipn j counts) = S (length stack) + list_sum (skipn (S j) counts)).
  { clear - Ec. revert j Ec. generalize (length stack) as z. induction counts as [|c cs IH]; intros z j E; [destruct j; discriminate|].
    destruct j as [|j]; cbn [nth_error] in E; [injection E as ->; reflexivity|]. apply (IH z j E). }
  destruct (pops_ok j stack hs (concat Rs) rest mk hj Hj) as (mk' & hj' & Ep & M2 & Nh' & Hh'); auto; [lia| |].
  { intros k Hk. destruct (C5 k Hk) as (h & Eh & _ & Hhk). eauto. }
  rewrite Ep. cbn [obind].
  assert (Lsk : length (skipn (length stack) rest) = S (list_sum (skipn (S j) counts))) by (rewrite skipn_length; lia).
  destruct (skipn (length stack) rest) as [|y ys]; [discriminate|]. cbn [length] in Lsk. injection Lsk as Lys.
  unfold sort_range. unfold oslice. rewrite !app_length. cbn [length].
  rewrite (proj2 (Nat.leb_le _ _)), (proj2 (Nat.leb_le _ _)) by lia. cbn [andb obind].
  assert (E1 : firstn (length (concat Rs) + length stack - length (concat Rs)) (skipn (length (concat Rs)) (concat Rs ++ stack ++ y :: ys)) = stack).
  { rewrite skipn_app, skipn_all, Nat.sub_diag. cbn [app skipn].
    replace (length (concat Rs) + length stack - length (concat Rs)) with (length stack) by lia.
    rewrite firstn_app, firstn_all, Nat.sub_diag. cbn [firstn]. apply app_nil_r. }
  rewrite E1.
  assert (E2 : firstn (length (concat Rs)) (concat Rs ++ stack ++ y :: ys) = concat Rs).
  { rewrite firstn_app, firstn_all, Nat.sub_diag. cbn [firstn]. apply app_nil_r. }
  rewrite E2.
  assert (E3 : skipn (length (concat Rs) + length stack) (concat Rs ++ stack ++ y :: ys) = y :: ys).
  { rewrite app_assoc, <- app_length, skipn_app, skipn_all, Nat.sub_diag. reflexivity. }
  rewrite E3.
  assert (E4 : oset (concat Rs ++ sort_nats stack ++ y :: ys) (length (concat Rs) + length stack) j =
    Done (concat (Rs ++ [sort_nats stack ++ [j]]) ++ ys)).
  { rewrite oset_ok by (rewrite !app_length, sort_length; cbn [length]; lia).
    rewrite lset_app2. rewrite <- (sort_length stack), <- (Nat.add_0_r (length (sort_nats stack))), lset_app2. cbn [lset].
    rewrite concat_app. cbn [concat]. rewrite app_nil_r, <- !app_assoc. reflexivity. }
  rewrite E4. cbn [obind]. rewrite (proj2 (oget_done _ _ _) Ec). cbn [obind].
  exists (Rs ++ [sort_nats stack ++ [j]]), (hs ++ [hj']), ys, mk'. split; [|split; [|split; [|split]]].
  - do 2 f_equal. f_equal. rewrite concat_app, app_length. cbn [concat]. rewrite app_nil_r, app_length, sort_length. cbn [length]. lia.
  - constructor.
    + rewrite app_length. cbn [length]. lia.
    + rewrite app_length. cbn [length]. lia.
    + intros k c Hk. apply nth_error_snoc in Hk. destruct Hk as [[_ Hk]|[-> ->]]; [apply C3; exact Hk|].
      rewrite C1, Ec, app_length, sort_length. cbn [length]. f_equal. lia.
    + intros k Hk. destruct (Nat.eq_dec k j) as [->|N].
      * exists (sort_nats stack). split; [apply nth_error_at; exact C1|]. split; [apply sort_strict; exact Ns|].
        intros x. rewrite sort_In. apply Hs.
      * destruct (C4 k) as (t & Et & Ht); [lia|]. exists t. split; [apply nth_error_app_old; exact Et|exact Ht].
    + intros k Hk. destruct (Nat.eq_dec k j) as [->|N].
      * exists hj'. split; [apply nth_error_at; exact C2|]. auto.
      * destruct (C5 k) as (t & Et & Ht); [lia|]. exists t. split; [apply nth_error_app_old; exact Et|exact Ht].
  - exact Lys.
  - apply M2.
  - intros x v Hv. destruct M2 as [L2 K2]. destruct (K2 x) as (v' & Ev' & Hv' & _).
    + rewrite <- L2. eapply nth_error_lt. exact Hv.
    + assert (v = v') by congruence. lia.
Qed.

Lemma structure_ok : exists Rs hs mk st,
  ofold (structure_column s ps fcs perm counts) (seq 0 n) (repeat 0 (list_sum counts), repeat 0 (m + n), 0, []) =
    Done (concat Rs, mk, st, hs) /\ columns n Rs hs /\ map (@length nat) Rs = counts.
Proof.
  destruct (ofold_ok_prefix (fun pre (st : list nat * list nat * nat * list (list nat)) => let '(ri, mk, start, hs) := st in
      exists Rs rest, ri = concat Rs ++ rest /\ start = length (concat Rs) /\ columns (length pre) Rs hs /\
      length rest = list_sum (skipn (length pre) counts) /\ length mk = m + n /\
      (forall x v, nth_error mk x = Some v -> v <= length pre))
    (structure_column s ps fcs perm counts) (seq 0 n)) with (s := (repeat 0 (list_sum counts), repeat 0 (m + n), 0, @nil (list nat)))
    as ([[[ri mk] st] hs] & E & Rs & rest & -> & -> & C & Lrest & _).
  - intros pre j suf [[[ri mk] st] hs] El (Rs & rest & -> & -> & C & Lrest & Lm & Hm).
    assert (Ej : nth_error (seq 0 n) (length pre) = Some j) by (rewrite El, nth_error_app2, Nat.sub_diag by lia; reflexivity).
    rewrite nth_error_seq in Ej. destruct (Nat.ltb_spec (length pre) n) as [Hj|]; [|discriminate]. injection Ej as <-. cbn [Nat.add].
    destruct (column_structure_ok (length pre) Rs hs rest mk Hj C Lrest Lm Hm) as (Rs' & hs' & rest' & mk' & E & C' & Lr' & Lm' & Hm').
    eexists; split; [exact E|]. cbn beta iota. rewrite app_length. cbn [length]. rewrite Nat.add_1_r.
    exists Rs', rest'. split; [reflexivity|]. auto.
  - exists [], (repeat 0 (list_sum counts)). split; [reflexivity|]. split; [reflexivity|]. split.
    { constructor; [reflexivity|reflexivity| | |].
      - intros k c H. destruct k; discriminate.
      - cbn [length]. intros; lia.
      - cbn [length]. intros; lia. }
    split; [rewrite repeat_length; reflexivity|]. split; [apply repeat_length|].
    intros x v H. rewrite nth_error_repeat in H. destruct (x <? m + n); [injection H as <-; lia|discriminate].
  - rewrite seq_length in C, Lrest. rewrite skipn_all2 in Lrest by lia. destruct rest; [|discriminate]. rewrite app_nil_r in E.
    exists Rs, hs, mk, (length (concat Rs)). split; [exact E|]. split; [exact C|].
    rewrite counts_prefix; [|apply C|rewrite (cl_r _ _ _ C); lia]. rewrite (cl_r _ _ _ C), <- Lcnt. apply firstn_all.
Qed.

(* ----- what is computed and not used ----- *)

Context (levels : list nat) (Llev : length levels = n) (Hlev : forall v l, nth_error levels v = Some l -> depth ps v l)
  (post : list nat) (Hpost : Permutation post (seq 0 n))
  (Hord : forall v p, parent ps v p -> exists before between after, post = before ++ [v] ++ between ++ [p] ++ after).

Lemma post_bound v : In v post -> v < n.
Proof. intros H. apply (Permutation_in _ Hpost), in_seq in H. lia. Qed.

Lemma roots_ok : exists roots, roots_of n ps post = Done roots /\ length roots = n /\
  forall v, v < n -> exists r, nth_error roots v = Some r /\ below v r /\ root ps r.
Proof.
  unfold roots_of.
  destruct (ofold_ok_prefix (fun pre (roots : list nat) => length roots = n /\
      forall v, In v pre -> exists r, nth_error roots v = Some r /\ below v r /\ root ps r)
    (fun root_of j =>
      let! p := oget ps j in
      match p with
      | None => oset root_of j j
      | Some p => let! r := oget root_of p in oset root_of j r
      end) (rev post)) with (s := repeat 0 n) as (roots & E & L & H).
  - intros pre j su roots El (L & H).
    assert (Hj : j < n). { apply post_bound. apply in_rev. rewrite El. apply in_or_app; right; left; reflexivity. }
    destruct (nth_error_ex ps j) as [o Ho]; [lia|]. rewrite (proj2 (oget_done _ _ _) Ho). cbn [obind].
    assert (Fin : forall r, below j r -> root ps r -> exists s', oset roots j r = Done s' /\ length s' = n /\
      forall v, In v (pre ++ [j]) -> exists r, nth_error s' v = Some r /\ below v r /\ root ps r).
    { intros r Br Rr. rewrite oset_ok by lia. eexists; split; [reflexivity|]. rewrite lset_length. split; [exact L|].
      intros v Hv. rewrite nth_error_lset. destruct (Nat.ltb_spec j (length roots)); [|lia].
      destruct (Nat.eqb_spec j v) as [<-|N]; [eauto|]. apply in_app_or in Hv. destruct Hv as [Hv|[Hv|[]]]; [|congruence].
      apply H. exact Hv. }
    destruct o as [p|].
    + assert (Hp : In p pre).
      { destruct (Hord _ _ Ho) as (bf & bt & af & Epost).
        assert (Er : rev post = (rev af ++ [p] ++ rev bt) ++ j :: rev bf).
        { rewrite Epost, !rev_app_distr. cbn [rev app]. rewrite <- !app_assoc. reflexivity. }
        assert (Np : NoDup (rev post)) by (apply NoDup_rev; eapply Permutation_NoDup; [symmetry; exact Hpost|apply seq_NoDup]).
        assert (Epre : pre = rev af ++ [p] ++ rev bt).
        { apply (NoDup_split_unique (rev post) pre _ j su (rev bf) Np El Er). }
        rewrite Epre. apply in_or_app. right. left. reflexivity. }
      destruct (H p Hp) as (r & Er & Br & Rr). rewrite (proj2 (oget_done _ _ _) Er). cbn [obind].
      apply Fin; [eapply below_step; eassumption|exact Rr].
    + apply Fin; [constructor|exact Ho].
  - split; [apply repeat_length|]. intros v [].
  - exists roots. split; [exact E|]. split; [exact L|]. intros v Hv. apply H. apply in_rev. rewrite rev_involutive.
    apply (Permutation_in _ (Permutation_sym Hpost)), in_seq. lia.
Qed.
Lemma depth_mono u v : below u v -> forall a b, depth ps u a -> depth ps v b -> b <= a.
Proof.
  induction 1 as [v|u p v Hp _ IH]; intros a b Ha Hb.
  - rewrite (depth_fun _ _ _ Ha _ Hb). lia.
  - destruct (depth_parent _ _ _ _ Ha Hp) as (a' & -> & Ha'). specialize (IH _ _ Ha' Hb). lia.
Qed.

Context (Lf : length fcs = m).

Lemma below_n u v : below u v -> u < n -> v < n.
Proof. induction 1 as [|u p v Hp _ IH]; intros Hu; [exact Hu|]. apply IH. apply Hup in Hp. lia. Qed.

Lemma row_roots_ok roots : length roots = n ->
  (forall v, v < n -> exists r, nth_error roots v = Some r /\ below v r /\ root ps r) ->
  exists rr, ofold (row_root_step m levels roots fcs perm) (seq 0 m) (repeat 0 m) = Done rr /\ length rr = m /\
    forall i r, nth_error rr i = Some r -> r < n \/ n = 0.
Proof.
  intros Lr Hr.
  destruct (ofold_ok_prefix (fun pre rr => length rr = m /\ forall i r, nth_error rr i = Some r -> r < n \/ n = 0)
    (row_root_step m levels roots fcs perm) (seq 0 m)) with (s := repeat 0 m) as (rr & E & L & H).
  - intros pre i su rr El (L & H). assert (Hi : i < m).
    { assert (In i (seq 0 m)) by (rewrite El; apply in_or_app; right; left; reflexivity). apply in_seq in H0. lia. }
    unfold row_root_step. destruct (Hrho i Hi) as [Ep Hp]. rewrite (proj2 (oget_done _ _ _) Ep). cbn [obind].
    destruct (Nat.leb_spec m (rho i)); [lia|]. destruct (nth_error_ex fcs i) as [o Ho]; [lia|].
    rewrite (proj2 (oget_done _ _ _) Ho). cbn [obind]. destruct o as [f|]; [|eauto].
    destruct (first_lt _ _ Ho) as [_ Hf]. destruct (Hr f Hf) as (r & Er & Br & Rr).
    rewrite (proj2 (oget_done _ _ _) Er). cbn [obind].
    pose proof (below_n _ _ Br Hf) as Hrn.
    assert (B : below f (if rho i <? r then rho i else r)).
    { destruct (Nat.ltb_spec (rho i) r); [|exact Br]. destruct (Hrhob i Hi) as (f' & F1 & F2); [lia|].
      assert (f' = f) by congruence. subst f'. exact F2. }
    set (q := if rho i <? r then rho i else r) in *. pose proof (below_n _ _ B Hf) as Hq.
    rewrite oset_ok by lia. cbn [obind].
    destruct (nth_error_ex levels f) as [lf Elf]; [lia|]. destruct (nth_error_ex levels q) as [lq Elq]; [lia|].
    rewrite (proj2 (oget_done _ _ _) Elf). cbn [obind]. rewrite (proj2 (oget_done _ _ _) Elq). cbn [obind].
    pose proof (depth_mono _ _ B _ _ (Hlev _ _ Elf) (Hlev _ _ Elq)) as Hd.
    unfold osub. destruct (Nat.leb_spec lq (1 + lf)); [|lia]. cbn [obind].
    eexists; split; [reflexivity|]. rewrite lset_length. split; [exact L|]. intros i' r' H'. rewrite nth_error_lset in H'.
    destruct (i =? i'); [|eapply H; exact H']. destruct (i <? length rr); [|discriminate]. injection H' as <-. left; exact Hq.
  - split; [apply repeat_length|]. intros i r H. rewrite nth_error_repeat in H. destruct (i <? m); [|discriminate].
    injection H as <-. lia.
  - exists rr. auto.
Qed.

Lemma weights_ok rr : length rr = m -> (forall i r, nth_error rr i = Some r -> r < n \/ n = 0) ->
  exists w, householder_weights m n ps fcs rr = Done w.
Proof.
  intros L H. unfold householder_weights.
  destruct (ofold_ok_prefix (fun _ (rows : list (list nat)) => length rows = n /\ forall j l, nth_error rows j = Some l -> Forall (fun i => i < m) l)
    (fun rows i =>
      let! j := oget fcs i in
      match j with None => Done rows | Some j => oupdate rows j (fun l => l ++ [i]) end) (seq 0 m))
    with (s := repeat (@nil nat) n) as (rows & E & Lrows & Hrows).
  - intros pre i su rows El (Lr & Hr). assert (Hi : i < m).
    { assert (In i (seq 0 m)) by (rewrite El; apply in_or_app; right; left; reflexivity). apply in_seq in H0. lia. }
    destruct (nth_error_ex fcs i) as [o Ho]; [lia|]. rewrite (proj2 (oget_done _ _ _) Ho). cbn [obind].
    destruct o as [f|]; [|eauto]. destruct (first_lt _ _ Ho) as [_ Hf].
    destruct (oupdate_ok rows f (fun l => l ++ [i])) as (l & El' & Eu); [lia|]. rewrite Eu. eexists; split; [reflexivity|].
    rewrite lset_length. split; [exact Lr|]. intros j l' H'. rewrite nth_error_lset in H'.
    destruct (f =? j); [|eapply Hr; exact H']. destruct (f <? length rows); [|discriminate].
    injection H' as <-. apply Forall_app. split; [eapply Hr; exact El'|constructor; [exact Hi|constructor]].
  - split; [apply repeat_length|]. intros j l H'. rewrite nth_error_repeat in H'. destruct (j <? n); [|discriminate].
    injection H' as <-. constructor.
  - rewrite E. cbn [obind].
    match goal with |- exists ww, ofold ?f _ _ = _ =>
      destruct (ofold_ok_prefix (fun _ (w : list Z) => length w = n) f (seq 0 n)) with (s := repeat 0%Z n) as (w & Ew & _) end.
    + intros pre j su w El Lw. assert (Hj : j < n).
      { assert (In j (seq 0 n)) by (rewrite El; apply in_or_app; right; left; reflexivity). apply in_seq in H0. lia. }
      destruct (nth_error_ex rows j) as [l El']; [lia|]. rewrite (proj2 (oget_done _ _ _) El'). cbn [obind].
      specialize (Hrows _ _ El'). rewrite Forall_forall in Hrows.
      match goal with |- exists ww, ofold ?f _ _ = _ /\ _ =>
        destruct (ofold_ok_prefix (fun _ (w : list Z) => length w = n) f l) with (s := w) as (w' & Ew & Lw') end.
      * intros pr i su' w0 El0 Lw0. assert (Hi : i < m) by (apply Hrows; rewrite El0; apply in_or_app; right; left; reflexivity).
        destruct (oupdate_ok w0 j (fun w => w + 1)%Z) as (x & _ & Eu); [lia|]. rewrite Eu. cbn [obind].
        destruct (nth_error_ex rr i) as [r Er]; [lia|]. rewrite (proj2 (oget_done _ _ _) Er). cbn [obind].
        destruct (H _ _ Er) as [Hr|]; [|lia]. destruct (nth_error_ex ps r) as [o Ho]; [lia|].
        rewrite (proj2 (oget_done _ _ _) Ho). cbn [obind]. destruct o as [p|].
        -- destruct (Hup _ _ Ho) as [_ Hp].
           destruct (oupdate_ok (lset w0 j (x + 1)%Z) p (fun w => w - 1)%Z) as (y & _ & Ev); [rewrite lset_length; lia|].
           rewrite Ev. eexists; split; [reflexivity|]. rewrite !lset_length. exact Lw0.
        -- eexists; split; [reflexivity|]. rewrite lset_length. exact Lw0.
      * exact Lw.
      * exists w'. auto.
    + apply repeat_length.
    + exists w. exact Ew.
Qed.

(* ----- what the structures satisfy ----- *)

Context (rho_inj : forall i j, i < m -> j < m -> rho i = rho j -> i = j)
  (rho_onto : forall c, c < n -> exists i, i < m /\ rho i = c).

Lemma carried_row k r : k < n -> carried k r -> exists i f, i < m /\ first i f /\ below f k /\ rho i = r.
Proof.
  intros Hk [->|(_ & i & f & H1 & H2 & H3)].
  - destruct (rho_onto k Hk) as (i & Hi & <-). destruct (Hrhob i Hi Hk) as (f & F1 & F2). exists i, f. auto.
  - exists i, f. split; [apply (first_lt _ _ H1)|auto].
Qed.

Lemma above_rows j r : j < n -> (exists i, structural s i j /\ rho i = r) \/ (exists k, above j k /\ carried k r) ->
  r < j -> above j r.
Proof.
  intros Hj [(i & H1 & <-)|(k & H1 & H2)] Hr; (split; [exact Hr|]).
  - destruct (Hent _ _ H1) as (Hi & _). destruct (Hrhob i Hi) as (f & F1 & F2); [lia|]. exists i, f. auto.
  - pose proof (carried_up _ _ H2 ltac:(lia)) as B. destruct H1 as (_ & i & f & F1 & F2 & F3). exists i, f.
    split; [exact F1|]. split; [exact F2|]. eapply below_trans; eassumption.
Qed.

Lemma carried_rows j r : j < n -> (exists i, structural s i j /\ rho i = r) \/ (exists k, above j k /\ carried k r) ->
  j <= r -> carried j r.
Proof.
  intros Hj [(i & H1 & <-)|(k & H1 & H2)] Hr; (destruct (Nat.eq_dec r j) as [E|N] || destruct (Nat.eq_dec (rho i) j) as [E|N]); try (left; exact E);
    right; (split; [lia|]).
  - destruct (Hent _ _ H1) as (_ & _ & f & F1 & F2). exists i, f. auto.
  - pose proof (above_below _ _ H1) as B. destruct H1 as [Hk _]. destruct H2 as [->|(_ & i & f & F1 & F2 & F3)]; [lia|].
    exists i, f. split; [exact F1|]. split; [eapply below_trans; eassumption|exact F3].
Qed.

Lemma rows_apart j k r : j < n -> k < j -> ~ above j k -> carried k r ->
  ~ ((exists i, structural s i j /\ rho i = r) \/ (exists k', k' < k /\ above j k' /\ carried k' r)).
Proof.
  intros Hj Hk N C. destruct (carried_row k r ltac:(lia) C) as (i & f & Hi & F1 & F2 & F3).
  intros [(i' & H1 & H2)|(k' & Hk' & H1 & H2)].
  - assert (i' = i). { apply rho_inj; [apply (Hent _ _ H1)|exact Hi|congruence]. } subst i'.
    apply N. split; [exact Hk|]. exists i, f. auto.
  - destruct (carried_row k' r ltac:(lia) H2) as (i' & f' & Hi' & G1 & G2 & G3).
    assert (i' = i) by (apply rho_inj; [exact Hi'|exact Hi|congruence]). subst i'. assert (f' = f) by congruence. subst f'.
    pose proof (s_order _ _ _ G2 F2 ltac:(lia)) as B. apply N. split; [exact Hk|]. destruct H1 as (_ & i0 & f0 & P1 & P2 & P3).
    exists i0, f0. split; [exact P1|]. split; [exact P2|]. eapply below_trans; eassumption.
Qed.
End Structure.
