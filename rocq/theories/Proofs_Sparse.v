(** Sparse matrices as sorted lists of cells *)
From Coq Require Import List Arith Bool Lia Permutation Sorted.
From Verif Require Import Outcome Lib ModelSparse Spec_Sparse.
Import ListNotations.

(* ----- counting ----- *)

(** How many elements of [l] have a key below [c] *)
Fixpoint below {A} (key : A -> nat) (c : nat) (l : list A) : nat :=
  match l with
  | [] => 0
  | x :: l => (if key x <? c then 1 else 0) + below key c l
  end.

Definition nondecreasing {A} (key : A -> nat) (l : list A) : Prop :=
  StronglySorted (fun x y => key x <= key y) l.

Lemma below_zero {A} (key : A -> nat) c l :
  Forall (fun x => c <= key x) l -> below key c l = 0.
Proof.
  induction 1 as [|x l H _ IH]; cbn [below]; [reflexivity|].
  destruct (Nat.ltb_spec (key x) c); lia.
Qed.

Lemma below_le {A} (key : A -> nat) c l : below key c l <= length l.
Proof. induction l as [|x l IH]; cbn [below length]; [lia|]. destruct (key x <? c); lia. Qed.

Lemma below_all {A} (key : A -> nat) c l :
  Forall (fun x => key x < c) l -> below key c l = length l.
Proof.
  induction 1 as [|x l H _ IH]; cbn [below length]; [reflexivity|].
  destruct (Nat.ltb_spec (key x) c); lia.
Qed.

Lemma below_app {A} (key : A -> nat) c l m :
  below key c (l ++ m) = below key c l + below key c m.
Proof. induction l as [|x l IH]; cbn [below app]; lia. Qed.

Lemma below_mono {A} (key : A -> nat) c d l : c <= d -> below key c l <= below key d l.
Proof.
  intros H. induction l as [|x l IH]; cbn [below]; [lia|].
  destruct (Nat.ltb_spec (key x) c), (Nat.ltb_spec (key x) d); lia.
Qed.

Lemma sorted_ge {A} (key : A -> nat) x l c :
  nondecreasing key (x :: l) -> c <= key x -> Forall (fun y => c <= key y) l.
Proof.
  intros H Hc. inversion H as [|? ? _ F]; subst.
  eapply Forall_impl; [|exact F]. cbn. intros; lia.
Qed.

(** In a list sorted by key, the elements with key below [c] come first. *)
Lemma below_spec {A} (key : A -> nat) l c k x :
  nondecreasing key l -> nth_error l k = Some x -> (k < below key c l <-> key x < c).
Proof.
  revert k; induction l as [|y l IH]; intros k Hs Hn; [destruct k; discriminate|].
  pose proof (sorted_ge key y l) as G. inversion Hs as [|? ? Hs' F]; subst.
  cbn [below]. destruct (Nat.ltb_spec (key y) c) as [Hy|Hy].
  - destruct k as [|k]; cbn [nth_error] in Hn.
    + injection Hn as <-. lia.
    + specialize (IH k Hs' Hn). lia.
  - specialize (G c Hs Hy). rewrite (below_zero key c l G).
    destruct k as [|k]; cbn [nth_error] in Hn.
    + injection Hn as <-. lia.
    + apply nth_error_In in Hn. rewrite Forall_forall in G. specialize (G x Hn). lia.
Qed.

Lemma sorted_slice {A} (key : A -> nat) l j :
  nondecreasing key l ->
  firstn (below key (S j) l - below key j l) (skipn (below key j l) l) =
  filter (fun x => key x =? j) l.
Proof.
  induction l as [|y l IH]; intros Hs; [reflexivity|].
  pose proof (sorted_ge key y l) as G. inversion Hs as [|? ? Hs' F]; subst.
  specialize (IH Hs'). cbn [below filter].
  destruct (Nat.ltb_spec (key y) j) as [Hy|Hy].
  - destruct (Nat.ltb_spec (key y) (S j)) as [_|]; [|lia].
    destruct (Nat.eqb_spec (key y) j) as [|_]; [lia|]. cbn [skipn Nat.add]. exact IH.
  - rewrite (below_zero key j l (G j Hs Hy)) in *. cbn [Nat.add skipn] in *.
    destruct (Nat.eqb_spec (key y) j) as [E|E].
    + destruct (Nat.ltb_spec (key y) (S j)) as [_|]; [|lia].
      replace (1 + below key (S j) l - 0) with (S (below key (S j) l - 0)) by lia.
      cbn [firstn]. f_equal. exact IH.
    + destruct (Nat.ltb_spec (key y) (S j)) as [|_]; [lia|].
      assert (Z : below key (S j) l = 0) by (apply below_zero, (G (S j) Hs); lia).
      rewrite Z in *. cbn [firstn Nat.add Nat.sub] in *. exact IH.
Qed.

(* ----- matrices as lists of cells ----- *)

Definition cell_col {T} (t : nat * nat * T) : nat := fst (fst t).
Definition cell_row {T} (t : nat * nat * T) : nat := snd (fst t).

Definition cell_lt {T} (a b : nat * nat * T) : Prop :=
  cell_col a < cell_col b \/ cell_col a = cell_col b /\ cell_row a < cell_row b.
Definition cell_le {T} (a b : nat * nat * T) : Prop :=
  cell_col a < cell_col b \/ cell_col a = cell_col b /\ cell_row a <= cell_row b.

(** The matrix whose cells, column by column, are [L] (column, row, value) *)
Definition csc {T} (nrows ncols : nat) (L : list (nat * nat * T)) : matrix T :=
  Matrix (Structure nrows ncols (map cell_row L)
            (map (fun c => below cell_col c L) (seq 0 (ncols + 1))))
         (map snd L).

Record cells {T} (nrows ncols : nat) (L : list (nat * nat * T)) : Prop := Cells {
  ce_sorted : StronglySorted cell_lt L;
  ce_bound : Forall (fun t => cell_row t < nrows /\ cell_col t < ncols) L
}.

Lemma strongly_impl {A} (R S : A -> A -> Prop) l :
  (forall x y, R x y -> S x y) -> StronglySorted R l -> StronglySorted S l.
Proof.
  intros H. induction 1 as [|x l _ IH F]; constructor; auto.
  eapply Forall_impl; [|exact F]. cbn. auto.
Qed.

Lemma strongly_nth {A} (R : A -> A -> Prop) l i j x y :
  StronglySorted R l -> nth_error l i = Some x -> nth_error l j = Some y -> i < j -> R x y.
Proof.
  intros Hs. revert i j. induction Hs as [|z l _ IH F]; intros i j Hi Hj Hij; [destruct i; discriminate|].
  destruct j as [|j]; [lia|]. cbn [nth_error] in Hj. destruct i as [|i]; cbn [nth_error] in Hi.
  - injection Hi as <-. apply nth_error_In in Hj. rewrite Forall_forall in F. auto.
  - eapply IH; eauto. lia.
Qed.

Lemma strongly_intro {A} (R : A -> A -> Prop) l :
  (forall i j x y, nth_error l i = Some x -> nth_error l j = Some y -> i < j -> R x y) ->
  StronglySorted R l.
Proof.
  induction l as [|z l IH]; intros H; constructor.
  - apply IH. intros i j x y Hi Hj Hij. apply (H (S i) (S j)); auto. lia.
  - apply Forall_forall. intros y Hy. apply In_nth_error in Hy. destruct Hy as [j Hj].
    apply (H 0 (S j) z y); auto. lia.
Qed.

Lemma sorted_cols {T} (L : list (nat * nat * T)) :
  StronglySorted cell_lt L -> nondecreasing cell_col L.
Proof. apply strongly_impl. unfold cell_lt. intros; lia. Qed.

Lemma csc_pointer {T} nrows ncols (L : list (nat * nat * T)) j :
  j <= ncols -> nth_error (s_column_pointers (m_structure (csc nrows ncols L))) j = Some (below cell_col j L).
Proof.
  intros H. cbn. rewrite nth_error_map, nth_error_seq.
  destruct (Nat.ltb_spec j (ncols + 1)); [reflexivity|lia].
Qed.

Lemma csc_pointer_inv {T} nrows ncols (L : list (nat * nat * T)) j a :
  nth_error (s_column_pointers (m_structure (csc nrows ncols L))) j = Some a ->
  j <= ncols /\ a = below cell_col j L.
Proof.
  cbn. rewrite nth_error_map, nth_error_seq.
  destruct (Nat.ltb_spec j (ncols + 1)) as [H|H]; cbn; [|discriminate].
  intros E; injection E as <-. split; [lia|reflexivity].
Qed.

Lemma csc_column {T} nrows ncols (L : list (nat * nat * T)) j a b :
  column (m_structure (csc nrows ncols L)) j a b <->
  j < ncols /\ a = below cell_col j L /\ b = below cell_col (S j) L.
Proof.
  unfold column. split.
  - intros [Ha Hb]. apply csc_pointer_inv in Ha. apply csc_pointer_inv in Hb.
    destruct Ha as [_ ->], Hb as [? ->]. repeat split; lia.
  - intros (H & -> & ->). split; apply csc_pointer; lia.
Qed.

(** Position [k] of the matrix is the [k]-th cell. *)
Lemma csc_stored {T} nrows ncols (L : list (nat * nat * T)) i j k :
  cells nrows ncols L ->
  (stored (m_structure (csc nrows ncols L)) i j k <-> exists v, nth_error L k = Some (j, i, v)).
Proof.
  intros [Hs Hb]. apply sorted_cols in Hs. unfold stored. split.
  - intros (a & b & Hc & Ha & Hk & Hn). apply csc_column in Hc. destruct Hc as (Hj & -> & ->).
    cbn in Hn. rewrite nth_error_map in Hn.
    destruct (nth_error L k) as [[[c r] v]|] eqn:E; cbn in Hn; [|discriminate].
    injection Hn as <-. exists v. cbn.
    pose proof (below_spec cell_col L j k _ Hs E) as B1.
    pose proof (below_spec cell_col L (S j) k _ Hs E) as B2. cbn in B1, B2.
    replace c with j by lia. reflexivity.
  - intros [v E]. exists (below cell_col j L), (below cell_col (S j) L).
    pose proof (below_spec cell_col L j k _ Hs E) as B1.
    pose proof (below_spec cell_col L (S j) k _ Hs E) as B2. cbn in B1, B2.
    rewrite Forall_forall in Hb. pose proof (Hb _ (nth_error_In _ _ E)) as [_ Hj]. cbn in Hj.
    split; [apply csc_column; auto|]. split; [lia|]. split; [lia|].
    cbn. rewrite nth_error_map, E. reflexivity.
Qed.

Lemma csc_entry {T} nrows ncols (L : list (nat * nat * T)) i j v :
  cells nrows ncols L -> (entry (csc nrows ncols L) i j v <-> In (j, i, v) L).
Proof.
  intros C. unfold entry. split.
  - intros (k & Hk & Hv). apply csc_stored in Hk; [|exact C]. destruct Hk as [w Hk].
    cbn in Hv. rewrite nth_error_map, Hk in Hv. injection Hv as <-. eapply nth_error_In; eauto.
  - intros H. apply In_nth_error in H. destruct H as [k Hk]. exists k. split.
    + apply csc_stored; [exact C|]. eauto.
    + cbn. rewrite nth_error_map, Hk. reflexivity.
Qed.

Lemma csc_structural {T} nrows ncols (L : list (nat * nat * T)) i j :
  cells nrows ncols L ->
  (structural (m_structure (csc nrows ncols L)) i j <-> exists v, In (j, i, v) L).
Proof.
  intros C. unfold structural. split.
  - intros (k & Hk). apply csc_stored in Hk; [|exact C]. destruct Hk as [v Hk].
    exists v. eapply nth_error_In; eauto.
  - intros [v H]. apply In_nth_error in H. destruct H as [k Hk]. exists k.
    apply csc_stored; eauto.
Qed.

Lemma csc_wf {T} nrows ncols (L : list (nat * nat * T)) :
  cells nrows ncols L -> well_formed_matrix (csc nrows ncols L).
Proof.
  intros C. pose proof (sorted_cols _ (ce_sorted _ _ _ C)) as Hs.
  constructor; [constructor|].
  - cbn. now rewrite map_length, seq_length.
  - rewrite csc_pointer by lia. f_equal. apply below_zero, Forall_forall. intros; lia.
  - change (s_ncols (m_structure (csc nrows ncols L))) with ncols.
    rewrite csc_pointer by lia. f_equal. cbn. rewrite map_length. apply below_all. eapply Forall_impl; [|exact (ce_bound _ _ _ C)]. cbn. tauto.
  - intros j a b H. apply csc_column in H. destruct H as (_ & -> & ->). apply below_mono. lia.
  - intros k i H. cbn in H. rewrite nth_error_map in H.
    destruct (nth_error L k) as [t|] eqn:E; [|discriminate]. injection H as <-.
    pose proof (ce_bound _ _ _ C) as B. rewrite Forall_forall in B.
    cbn. apply (B t). eapply nth_error_In; eauto.
  - intros j a b k i i' Hc Ha Hb Hi Hi'.
    assert (S1 : stored (m_structure (csc nrows ncols L)) i j k) by (exists a, b; repeat split; try apply Hc; auto; lia).
    assert (S2 : stored (m_structure (csc nrows ncols L)) i' j (S k)) by (exists a, b; repeat split; try apply Hc; auto; lia).
    apply csc_stored in S1; [|exact C]. apply csc_stored in S2; [|exact C].
    destruct S1 as [v E1], S2 as [v' E2].
    pose proof (strongly_nth _ _ k (S k) _ _ (ce_sorted _ _ _ C) E1 E2 (Nat.lt_succ_diag_r k)) as G.
    destruct G as [G|[_ G]]; cbn in G; lia.
  - cbn. now rewrite !map_length.
Qed.

(* ----- every well-formed matrix is of that form ----- *)

Lemma pointers_sorted s : well_formed s -> nondecreasing (fun x : nat => x) (s_column_pointers s).
Proof.
  intros W. apply strongly_intro.
  assert (G : forall d i x y, nth_error (s_column_pointers s) i = Some x ->
    nth_error (s_column_pointers s) (i + d) = Some y -> x <= y).
  { induction d as [|d IH]; intros i x y Hx Hy.
    - rewrite Nat.add_0_r, Hx in Hy. injection Hy as <-. lia.
    - rewrite Nat.add_succ_r in Hy.
      destruct (nth_error_ex (s_column_pointers s) (i + d)) as [z Hz].
      { apply nth_error_lt in Hy. lia. }
      specialize (IH i x z Hx Hz).
      pose proof (wf_ordered _ W (i + d) z y (conj Hz Hy)). lia. }
  intros i j x y Hx Hy Hij. apply (G (j - i) i x y Hx). now replace (i + (j - i)) with j by lia.
Qed.

Lemma below_map {A B} (key : B -> nat) (f : A -> B) c l :
  below key c (map f l) = below (fun a => key (f a)) c l.
Proof. induction l as [|x l IH]; cbn [below map]; congruence. Qed.

Lemma below_ext {A} (key key' : A -> nat) c c' l :
  (forall x, In x l -> (key x < c <-> key' x < c')) -> below key c l = below key' c' l.
Proof.
  induction l as [|x l IH]; intros H; cbn [below]; [reflexivity|].
  rewrite IH by (intros; apply H; now right).
  pose proof (H x (or_introl eq_refl)).
  destruct (Nat.ltb_spec (key x) c), (Nat.ltb_spec (key' x) c'); lia.
Qed.

Lemma below_seq n c : below (fun x : nat => x) c (seq 0 n) = Nat.min n c.
Proof.
  induction n as [|n IH]; [reflexivity|].
  rewrite seq_S, below_app, IH. cbn [below Nat.add].
  destruct (Nat.ltb_spec n c); lia.
Qed.

(** The column position [k] is in *)
Definition col_of (s : structure) (k : nat) : nat :=
  below (fun x : nat => x) (S k) (tl (s_column_pointers s)).

Lemma col_of_spec s k c p :
  well_formed s -> nth_error (s_column_pointers s) c = Some p -> (c <= col_of s k <-> p <= k).
Proof.
  intros W Hc. unfold col_of. pose proof (pointers_sorted s W) as Hs.
  pose proof (wf_start s W) as H0.
  destruct (s_column_pointers s) as [|q ptrs]; [discriminate|]. cbn [tl].
  destruct c as [|c]; cbn [nth_error] in *.
  - rewrite Hc in H0. injection H0 as ->. lia.
  - inversion Hs as [|? ? Hs' _]; subst.
    pose proof (below_spec (fun x : nat => x) ptrs (S k) c p Hs' Hc). lia.
Qed.

Lemma csc_of {T} (m : matrix T) :
  well_formed_matrix m ->
  exists L, cells (s_nrows (m_structure m)) (s_ncols (m_structure m)) L /\
    m = csc (s_nrows (m_structure m)) (s_ncols (m_structure m)) L.
Proof.
  intros [W Hl]. destruct m as [s vals]. cbn [m_structure m_values] in *.
  set (nnz := length (s_row_indices s)) in *.
  set (L := combine (combine (map (col_of s) (seq 0 nnz)) (s_row_indices s)) vals).
  assert (Lnth : forall k t, nth_error L k = Some t ->
    k < nnz /\ cell_col t = col_of s k /\ nth_error (s_row_indices s) k = Some (cell_row t) /\
    nth_error vals k = Some (snd t)).
  { intros k t E. unfold L in E. rewrite !nth_error_combine in E.
    destruct (nth_error vals k) as [v|] eqn:Ev.
    2:{ destruct (nth_error (map (col_of s) (seq 0 nnz)) k), (nth_error (s_row_indices s) k); discriminate. }
    destruct (nth_error (s_row_indices s) k) as [i|] eqn:Ei.
    2:{ destruct (nth_error (map (col_of s) (seq 0 nnz)) k); discriminate. }
    assert (Hk : k < nnz) by (apply nth_error_lt in Ei; exact Ei).
    rewrite nth_error_map, nth_error_seq in E.
    destruct (Nat.ltb_spec k nnz); [|lia]. cbn in E. injection E as <-. auto. }
  assert (Llen : length L = nnz).
  { unfold L. rewrite !combine_length, map_length, seq_length. fold nnz. lia. }
  assert (Hcol : forall k, k < nnz -> col_of s k < s_ncols s).
  { intros k Hk. pose proof (col_of_spec s k (s_ncols s) nnz W (wf_end s W)). lia. }
  assert (C : cells (s_nrows s) (s_ncols s) L).
  { constructor.
    - apply strongly_intro. intros k k' t t' Ht Ht' Hkk.
      apply Lnth in Ht. apply Lnth in Ht'.
      destruct Ht as (Hk & Ec & Er & _), Ht' as (Hk' & Ec' & Er' & _).
      assert (Mono : col_of s k <= col_of s k').
      { unfold col_of. apply below_mono. lia. }
      destruct (Nat.eq_dec (col_of s k) (col_of s k')) as [E|E]; [|left; lia].
      right. split; [lia|].
      (* same column: by induction on the distance *)
      set (j := col_of s k) in *.
      destruct (nth_error_ex (s_column_pointers s) j) as [a Ha].
      { rewrite (wf_count s W). pose proof (Hcol k Hk). fold j in H. lia. }
      destruct (nth_error_ex (s_column_pointers s) (S j)) as [b Hb].
      { rewrite (wf_count s W). pose proof (Hcol k Hk). fold j in H. lia. }
      assert (G : forall d i i', nth_error (s_row_indices s) k = Some i ->
        nth_error (s_row_indices s) (S (k + d)) = Some i' -> S (k + d) <= k' -> i < i').
      { induction d as [|d IH]; intros i i' Hi Hi' Hd.
        - rewrite Nat.add_0_r in *.
          apply (wf_increasing s W j a b k i i' (conj Ha Hb)); auto.
          + pose proof (col_of_spec s k j a W Ha). unfold j in *. lia.
          + pose proof (col_of_spec s k' (S j) b W Hb). lia.
        - destruct (nth_error_ex (s_row_indices s) (S (k + d))) as [i'' Hi''].
          { apply nth_error_lt in Hi'. lia. }
          specialize (IH i i'' Hi Hi'' ltac:(lia)).
          rewrite Nat.add_succ_r in Hi'.
          assert (i'' < i'); [|lia].
          apply (wf_increasing s W j a b (S (k + d)) i'' i' (conj Ha Hb)); auto.
          + pose proof (col_of_spec s k j a W Ha). unfold j in *. lia.
          + pose proof (col_of_spec s k' (S j) b W Hb). lia. }
      apply (G (k' - k - 1)); auto; [|lia]. now replace (S (k + (k' - k - 1))) with k' by lia.
    - apply Forall_forall. intros t Ht. apply In_nth_error in Ht. destruct Ht as [k Hk].
      apply Lnth in Hk. destruct Hk as (Hk & Ec & Er & _). split.
      + apply (wf_bound s W k); auto.
      + rewrite Ec. auto. }
  exists L. split; [exact C|].
  unfold csc. f_equal.
  - assert (E1 : s_row_indices s = map cell_row L).
    { apply nth_error_ext. intros k. rewrite nth_error_map.
      destruct (nth_error L k) as [t|] eqn:E; cbn.
      - apply Lnth in E. tauto.
      - apply nth_error_None in E. apply nth_error_None. lia. }
    assert (E2 : s_column_pointers s = map (fun c => below cell_col c L) (seq 0 (s_ncols s + 1))).
    { apply nth_error_ext. intros c. rewrite nth_error_map, nth_error_seq.
      destruct (Nat.ltb_spec c (s_ncols s + 1)) as [Hc|Hc]; cbn.
      2:{ apply nth_error_None. rewrite (wf_count s W). lia. }
      destruct (nth_error_ex (s_column_pointers s) c) as [p Hp]; [rewrite (wf_count s W); lia|].
      rewrite Hp. f_equal.
      assert (Em : map cell_col L = map (col_of s) (seq 0 nnz)).
      { apply nth_error_ext. intros k. rewrite !nth_error_map, nth_error_seq.
        destruct (nth_error L k) as [t|] eqn:E.
        - apply Lnth in E. destruct E as (Hk & Ec & _).
          destruct (Nat.ltb_spec k nnz); [|lia]. cbn [option_map]. f_equal. exact Ec.
        - apply nth_error_None in E. destruct (Nat.ltb_spec k nnz); [lia|]. reflexivity. }
      transitivity (below (fun x : nat => x) c (map cell_col L)); [|rewrite below_map; reflexivity].
      rewrite Em, below_map.
      rewrite (below_ext (fun a => col_of s a) (fun x : nat => x) c p).
      - rewrite below_seq.
        enough (p <= nnz) by lia.
        assert (Hn := wf_end s W).
        destruct (Nat.eq_dec c (s_ncols s)) as [->|].
        + rewrite Hp in Hn. injection Hn as ->. fold nnz. lia.
        + pose proof (strongly_nth _ _ c (s_ncols s) _ _ (pointers_sorted s W) Hp Hn ltac:(lia)).
          cbn in H. fold nnz in H. exact H.
      - intros k _. pose proof (col_of_spec s k c p W Hp). lia. }
    rewrite <- E1, <- E2. now destruct s.
  - apply nth_error_ext. intros k. rewrite nth_error_map.
    destruct (nth_error L k) as [t|] eqn:E; cbn.
    + apply Lnth in E. tauto.
    + apply nth_error_None in E. apply nth_error_None. lia.
Qed.

(** A well-formed matrix is determined by its shape and its entries. *)
Lemma cells_unique {T} (L L' : list (nat * nat * T)) :
  StronglySorted cell_lt L -> StronglySorted cell_lt L' ->
  (forall t, In t L <-> In t L') -> L = L'.
Proof.
  intros H. revert L'. induction H as [|x L Hs IH F]; intros L' H' E.
  - destruct L' as [|y L']; [reflexivity|]. destruct (proj2 (E y) (or_introl eq_refl)).
  - destruct L' as [|y L']; [destruct (proj1 (E x) (or_introl eq_refl))|].
    inversion H' as [|? ? Hs' F']; subst. rewrite Forall_forall in F, F'.
    assert (Exy : x = y).
    { destruct (proj1 (E x) (or_introl eq_refl)) as [?|Hx]; [congruence|].
      destruct (proj2 (E y) (or_introl eq_refl)) as [?|Hy]; [congruence|].
      specialize (F y Hy). specialize (F' x Hx). unfold cell_lt in *. lia. }
    subst y. f_equal. apply IH; [exact Hs'|]. intros t. split; intros Ht.
    + destruct (proj1 (E t) (or_intror Ht)) as [<-|]; [|assumption].
      specialize (F x Ht). unfold cell_lt in F. lia.
    + destruct (proj2 (E t) (or_intror Ht)) as [<-|]; [|assumption].
      specialize (F' x Ht). unfold cell_lt in F'. lia.
Qed.

Lemma matrix_unique {T} (m m' : matrix T) :
  well_formed_matrix m -> well_formed_matrix m' ->
  shape (m_structure m) = shape (m_structure m') ->
  (forall i j v, entry m i j v <-> entry m' i j v) -> m = m'.
Proof.
  intros W W' Hsh He. destruct (csc_of m W) as (L & C & E), (csc_of m' W') as (L' & C' & E').
  unfold shape in Hsh. injection Hsh as H1 H2. rewrite E, E'. rewrite <- H1, <- H2 in *.
  f_equal. apply cells_unique; [apply C|apply C'|].
  intros [[j i] v]. specialize (He i j v). rewrite E, E' in He.
  rewrite !csc_entry in He; assumption.
Qed.

Lemma stored_fun s i j k j' i' : well_formed s -> stored s i j k -> stored s i' j' k -> i = i' /\ j = j'.
Proof.
  intros W (a & b & [Ha Hb] & H1 & H2 & H3) (a' & b' & [Ha' Hb'] & H1' & H2' & H3').
  split; [congruence|].
  pose proof (col_of_spec s k _ _ W Ha). pose proof (col_of_spec s k _ _ W Hb).
  pose proof (col_of_spec s k _ _ W Ha'). pose proof (col_of_spec s k _ _ W Hb'). lia.
Qed.

Lemma cell_fun {T} (L : list (nat * nat * T)) i j v v' :
  StronglySorted cell_lt L -> In (j, i, v) L -> In (j, i, v') L -> v = v'.
Proof.
  intros Hs H H'. apply In_nth_error in H. apply In_nth_error in H'.
  destruct H as [k Hk], H' as [k' Hk'].
  destruct (Nat.lt_trichotomy k k') as [Hl|[->|Hl]].
  - pose proof (strongly_nth _ _ _ _ _ _ Hs Hk Hk' Hl) as G. unfold cell_lt in G; cbn in G. lia.
  - congruence.
  - pose proof (strongly_nth _ _ _ _ _ _ Hs Hk' Hk Hl) as G. unfold cell_lt in G; cbn in G. lia.
Qed.

Lemma entry_fun {T} (m : matrix T) i j v v' :
  well_formed_matrix m -> entry m i j v -> entry m i j v' -> v = v'.
Proof.
  intros W. destruct (csc_of m W) as (L & C & ->). rewrite !csc_entry by assumption.
  apply cell_fun, C.
Qed.

(** Indexing a column *)
Lemma oslice_ok {A} (l : list A) a b :
  a <= b -> b <= length l -> oslice l a b = Done (firstn (b - a) (skipn a l)).
Proof.
  intros. unfold oslice. destruct (Nat.leb_spec a b), (Nat.leb_spec b (length l)); cbn; (reflexivity || lia).
Qed.

Lemma csc_range {T} nrows ncols (L : list (nat * nat * T)) j :
  j < ncols -> index_column_range (m_structure (csc nrows ncols L)) j =
               Done (below cell_col j L, below cell_col (S j) L).
Proof.
  intros H. unfold index_column_range.
  assert (E : length (s_column_pointers (m_structure (csc nrows ncols L))) = ncols + 1).
  { cbn. now rewrite map_length, seq_length. }
  rewrite E. destruct (Nat.leb_spec (ncols + 1) (j + 1)); [lia|].
  unfold oget. replace (j + 1) with (S j) by lia. rewrite !csc_pointer by lia. reflexivity.
Qed.

Lemma csc_index_column {T} nrows ncols (L : list (nat * nat * T)) j :
  cells nrows ncols L -> j < ncols ->
  matrix_column (csc nrows ncols L) j =
    Done (map snd (filter (fun t => cell_col t =? j) L),
          map cell_row (filter (fun t => cell_col t =? j) L)).
Proof.
  intros C H. unfold matrix_column. rewrite csc_range by assumption. cbn [obind csc m_values m_structure s_row_indices].
  pose proof (below_mono cell_col j (S j) L ltac:(lia)). pose proof (below_le cell_col (S j) L).
  rewrite !oslice_ok by (rewrite ?map_length; lia). cbn [obind].
  rewrite !skipn_map, !firstn_map, sorted_slice by apply sorted_cols, C. reflexivity.
Qed.

Lemma csc_structure_column {T} nrows ncols (L : list (nat * nat * T)) j :
  cells nrows ncols L -> j < ncols ->
  index_column (m_structure (csc nrows ncols L)) j =
    Done (map cell_row (filter (fun t => cell_col t =? j) L)).
Proof.
  intros C H. unfold index_column. rewrite csc_range by assumption. cbn [obind csc m_values m_structure s_row_indices].
  pose proof (below_mono cell_col j (S j) L ltac:(lia)). pose proof (below_le cell_col (S j) L).
  rewrite !oslice_ok by (rewrite ?map_length; lia).
  rewrite !skipn_map, !firstn_map, sorted_slice by apply sorted_cols, C. reflexivity.
Qed.
