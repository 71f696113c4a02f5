(** What merging columns leaves as it was; the forest of absorbed columns *)
From Coq Require Import List Arith ZArith Lia Bool Permutation.
From Verif Require Import Outcome Lib ModelColamd Spec_Colamd Proofs_Zlist Proofs_Order Proofs_View Proofs_DegreeLists Proofs_Absorb Proofs_Collect Proofs_Gather.
Import ListNotations.
Local Open Scope Z_scope.

Lemma zsum_remove f x l : NoDup l -> In x l -> zsum f l = f x + zsum f (filter (fun y => negb (y =? x)) l).
Proof.
  induction l as [|y l IH]; intros N H; [destruct H|]. inversion N as [|? ? N1 N2]. subst. rewrite zsum_cons. cbn [filter].
  destruct (Z.eqb_spec y x) as [->|Ne]; cbn [negb].
  - rewrite filter_all; [reflexivity|]. intros z Hz. apply negb_true_iff, Z.eqb_neq. intros ->. contradiction.
  - destruct H as [->|H]; [contradiction|]. rewrite zsum_cons, (IH N2 H). lia.
Qed.
Lemma zsum_fupd f s y l : NoDup l -> In s l -> zsum (fupd f s y) l = zsum f l - f s + y.
Proof.
  intros N H. rewrite (zsum_remove _ s l N H), (zsum_remove f s l N H). rewrite fupd_same.
  rewrite (zsum_ext (fupd f s y) f); [lia|]. intros z Hz. apply filter_In in Hz. destruct Hz as (_ & Hz).
  apply negb_true_iff, Z.eqb_neq in Hz. apply fupd_other. congruence.
Qed.
Lemma zsum_fupd_out f s y l : ~ In s l -> zsum (fupd f s y) l = zsum f l.
Proof. intros H. apply zsum_ext. intros z Hz. apply fupd_other. intros ->. contradiction. Qed.

Definition lives (f : Z -> Z) (y : Z) : bool := 0 <=? f y.
Lemma lives_true f y : lives f y = true <-> 0 <= f y. Proof. apply Z.leb_le. Qed.
Lemma lives_false f y : lives f y = false <-> f y < 0. Proof. apply Z.leb_gt. Qed.

Section Merge.
  Variables (P : list Z) (m len s0 t0 u0 : Z -> Z).
  Notation merges := (merges P m len s0 t0 u0).

  Lemma merges_live fs f1 f2 y : merges fs f1 f2 -> 0 <= fs y -> fs y = s0 y /\ f2 y = u0 y.
  Proof. intros M H. destruct (merges_start _ _ _ _ _ _ _ _ _ M y) as [X|X]; [auto|lia]. Qed.
  Lemma merges_dead fs f1 f2 y : merges fs f1 f2 -> s0 y < 0 -> fs y = s0 y /\ f1 y = t0 y /\ f2 y = u0 y.
  Proof.
    induction 1 as [|fs f1 f2 s x M IH N Hs Hx Ls Lx El Ef Es]; intros H; auto. specialize (IH H).
    assert (x <> y) by (intros ->; lia). assert (s <> y) by (intros ->; lia). rewrite !fupd_other by auto. exact IH.
  Qed.
  Lemma merges_sum fs f1 f2 l : merges fs f1 f2 -> NoDup l ->
    (forall y z, In y P -> In z P -> 0 <= s0 y -> 0 <= s0 z -> len y = len z -> seg m (s0 y) (len y) = seg m (s0 z) (len z) ->
       (In y l -> In z l)) ->
    zsum f1 (filter (lives fs) l) = zsum t0 (filter (lives s0) l).
  Proof.
    intros M Nl Hl. induction M as [|fs f1 f2 s x M IH N Hs Hx Ls Lx El Ef Es]; auto. rewrite <- IH.
    pose proof (proj1 (merges_live _ _ _ s M Ls)) as Es0. pose proof (proj1 (merges_live _ _ _ x M Lx)) as Ex0. rewrite Es0, Ex0 in *.
    assert (Ixs : In x l <-> In s l).
    { split; intros X; [apply (Hl x s)|apply (Hl s x)]; auto. }
    assert (Efl : filter (lives (fupd fs x (-2))) l = filter (fun y => negb (y =? x)) (filter (lives fs) l)).
    { rewrite filter_filter. apply filter_ext. intros y. unfold lives, fupd. rewrite (Z.eqb_sym x y).
      destruct (Z.eqb_spec y x) as [->|]; cbn [negb]; [rewrite andb_false_r; reflexivity|now rewrite andb_true_r]. }
    rewrite Efl. set (l' := filter (lives fs) l). assert (N' : NoDup l') by now apply NoDup_filter.
    destruct (in_dec Z.eq_dec x l) as [Ix|Nx].
    - assert (Ix' : In x l'). { apply filter_In. split; auto. apply lives_true. lia. }
      assert (Is' : In s l'). { apply filter_In. split; [now apply Ixs|]. apply lives_true. lia. }
      rewrite zsum_fupd_out. 2:{ rewrite filter_In. intros (_ & X). rewrite Z.eqb_refl in X. discriminate. }
      rewrite zsum_fupd; [|now apply NoDup_filter|].
      2:{ apply filter_In. split; auto. apply negb_true_iff, Z.eqb_neq. auto. }
      rewrite (zsum_remove f1 x l' N' Ix'). lia.
    - assert (Ns : ~ In s l) by (rewrite <- Ixs; auto).
      rewrite filter_all.
      2:{ intros y Hy. apply negb_true_iff, Z.eqb_neq. intros ->. apply filter_In in Hy. tauto. }
      rewrite !zsum_fupd_out; auto; intros X; apply filter_In in X; tauto.
  Qed.
  Lemma merges_pos fs f1 f2 : merges fs f1 f2 -> (forall y, 0 <= s0 y -> In y P -> 1 <= t0 y) -> forall y, 0 <= fs y -> In y P -> 1 <= f1 y.
  Proof.
    intros M H. induction M as [|fs f1 f2 s x M IH N Hs Hx Ls Lx El Ef Es]; auto. intros y Ly Hy. unfold fupd in *.
    destruct (Z.eqb_spec x y) as [Exy|Ny]; [lia|]. pose proof (IH x Lx Hx). destruct (Z.eqb_spec s y) as [Esy|Ns]; [|auto]. specialize (IH s Ls Hs). lia.
  Qed.
End Merge.

Section Forest.
  Variable n : Z.

  (** From [j] to the root of its tree *)
  Inductive climbs (fs f1 : Z -> Z) : Z -> Z -> Prop :=
  | cs_here j : 0 <= j < n -> fs j <> -2 -> climbs fs f1 j j
  | cs_up j r : 0 <= j < n -> fs j = -2 -> climbs fs f1 (f1 j) r -> climbs fs f1 j r.

  Record forest (fs f1 f2 rt : Z -> Z) : Prop := {
    fo_root : forall j, 0 <= j < n -> climbs fs f1 j (rt j);
    fo_count : forall r, 0 <= r < n -> fs r <> -2 -> f1 r = zlen (filter (fun j => rt j =? r) (zrange 0 n));
    fo_none : forall j, 0 <= j < n -> fs j = -2 -> f2 j = -1;
    fo_dead : forall j, 0 <= j < n -> fs j < 0 -> fs j = -1 \/ fs j = -2
  }.
  (** The places of the principal columns *)
  Record places (fs f1 f2 : Z -> Z) (k n2 : Z) : Prop := {
    pl_in : forall r, 0 <= r < n -> fs r = -1 -> (0 <= f2 r /\ f2 r + f1 r <= k) \/ (n2 <= f2 r /\ f2 r + f1 r <= n);
    pl_apart : forall r r', 0 <= r < n -> 0 <= r' < n -> r <> r' -> fs r = -1 -> fs r' = -1 -> f2 r + f1 r <= f2 r' \/ f2 r' + f1 r' <= f2 r
  }.

  Lemma climbs_range fs f1 j r : climbs fs f1 j r -> 0 <= r < n /\ fs r <> -2.
  Proof. induction 1; auto. Qed.
  Lemma climbs_ext fs f1 gs g1 j r : (forall i, 0 <= i < n -> fs i = -2 <-> gs i = -2) -> (forall i, 0 <= i < n -> fs i = -2 -> g1 i = f1 i) ->
    climbs fs f1 j r -> climbs gs g1 j r.
  Proof.
    intros H1 H2. induction 1 as [j Hj F|j r Hj F H IH].
    - apply cs_here; auto. rewrite <- H1; auto.
    - apply cs_up; auto; [now apply H1|]. now rewrite H2.
  Qed.
  Lemma forest_ext fs f1 f2 gs g1 g2 rt : forest fs f1 f2 rt -> (forall i, 0 <= i < n -> fs i = -2 <-> gs i = -2) ->
    (forall i, 0 <= i < n -> g1 i = f1 i) -> (forall i, 0 <= i < n -> fs i = -2 -> g2 i = f2 i) ->
    (forall i, 0 <= i < n -> gs i < 0 -> gs i = fs i \/ gs i = -1) -> forest gs g1 g2 rt.
  Proof.
    intros [] E1 E2 E3 E4. constructor.
    - intros j Hj. eapply climbs_ext; [| |apply fo_root0; auto]; auto.
    - intros r Hr Nr. rewrite E2 by auto. apply fo_count0; auto. rewrite E1; auto.
    - intros j Hj Ej. apply E1 in Ej; auto. rewrite E3; auto.
    - intros j Hj Ej. destruct (E4 j Hj Ej) as [X|X]; [rewrite X; apply fo_dead0; auto; lia|auto].
  Qed.

  Lemma merge_climbs fs f1 f2 rt s x : forest fs f1 f2 rt -> 0 <= s < n -> s <> x -> fs s <> -2 -> fs x <> -2 ->
    forall j r, climbs fs f1 j r -> climbs (fupd fs x (-2)) (fupd (fupd f1 s (f1 s + f1 x)) x s) j (if r =? x then s else r).
  Proof.
    intros F Hs N Ls Lx. induction 1 as [j Hj Fj|j r Hj Fj H IH].
    - destruct (Z.eqb_spec j x) as [->|Nj].
      + apply cs_up; [auto|apply fupd_same|]. rewrite fupd_same. apply cs_here; auto. now rewrite fupd_other by auto.
      + apply cs_here; auto. now rewrite fupd_other by auto.
    - assert (x <> j) by congruence. assert (s <> j) by congruence. apply cs_up; auto; [now rewrite fupd_other by auto|].
      rewrite !fupd_other by auto. exact IH.
  Qed.
  Lemma count_merge (rt : Z -> Z) s x (l : list Z) : s <> x -> zlen (filter (fun j => (if rt j =? x then s else rt j) =? s) l) =
    zlen (filter (fun j => rt j =? s) l) + zlen (filter (fun j => rt j =? x) l).
  Proof.
    intros N. induction l as [|j l IH]; [reflexivity|]. cbn [filter]. destruct (Z.eqb_spec (rt j) x) as [->|].
    - rewrite Z.eqb_refl. destruct (Z.eqb_spec x s); [congruence|]. rewrite !zlen_cons. lia.
    - destruct (rt j =? s); rewrite ?zlen_cons; lia.
  Qed.
  Lemma merges_forest P m len s0 t0 u0 fs f1 f2 rt : merges P m len s0 t0 u0 fs f1 f2 -> (forall x, In x P -> 0 <= x < n) ->
    forest s0 t0 u0 rt -> exists rt', forest fs f1 f2 rt'.
  Proof.
    intros M HP F. induction M as [|fs f1 f2 s x M (rt1 & IH) N Hs Hx Ls Lx El Ef Es]; [eauto|].
    exists (fun j => if rt1 j =? x then s else rt1 j).
    assert (Nx : fs x <> -2) by lia. assert (Ns : fs s <> -2) by lia. pose proof (HP s Hs) as Hs'. pose proof (HP x Hx) as Hx'.
    constructor.
    - intros j Hj. eapply merge_climbs; eauto. now apply (fo_root _ _ _ _ IH).
    - intros r Hr Fr. assert (x <> r) by (intros ->; rewrite fupd_same in Fr; congruence). rewrite fupd_other in Fr by auto. rewrite fupd_other by auto.
      destruct (Z.eq_dec s r) as [<-|Nr].
      + rewrite fupd_same. rewrite count_merge by auto. rewrite <- (fo_count _ _ _ _ IH s), <- (fo_count _ _ _ _ IH x); auto.
      + rewrite fupd_other by auto. rewrite (fo_count _ _ _ _ IH r) by auto. f_equal. apply filter_ext. intros j.
        destruct (Z.eqb_spec (rt1 j) x) as [->|]; auto. destruct (Z.eqb_spec x r), (Z.eqb_spec s r); congruence.
    - intros j Hj Fj. unfold fupd in *. destruct (Z.eqb_spec x j); auto. now apply (fo_none _ _ _ _ IH).
    - intros j Hj Fj. unfold fupd in *. destruct (Z.eqb_spec x j); auto. now apply (fo_dead _ _ _ _ IH).
  Qed.
End Forest.
