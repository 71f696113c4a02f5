(** Properties C27-C31: sparse matrices.  Statements use the model,
    [Spec_Sparse.v] and [Spec_Linear.v] only. *)
From Coq Require Import List Arith Bool Lia Permutation Sorted Reals Lra.
From Verif Require Import Num NumR Outcome ModelSparse Spec_Sparse Spec_Linear
  Proofs_Sparse Proofs_Convert Proofs_Transpose Proofs_Format Proofs_Triangular.
Import ListNotations.
Local Open Scope nat_scope.

Lemma key_leb_spec a b : key_leb a b = true <-> key_le a b.
Proof.
  unfold key_leb, key_le. destruct (Nat.ltb_spec (fst a) (fst b)), (Nat.eqb_spec (fst a) (fst b)),
    (Nat.leb_spec (snd a) (snd b)); cbn; split; intros; auto; try discriminate; lia.
Qed.

Lemma insertion_sort_sorting : sorting insertion_sort.
Proof.
  intros key l.
  assert (Ins : forall x l, Permutation (insert_by key x l) (x :: l)).
  { intros x l'. induction l' as [|y l' IH]; cbn; [reflexivity|].
    destruct (key_leb (key x) (key y)); [reflexivity|]. rewrite IH. constructor. }
  split.
  - induction l as [|x l IH]; [constructor|].
    change (insertion_sort key (x :: l)) with (insert_by key x (insertion_sort key l)). rewrite Ins. now constructor.
  - induction l as [|x l IH]; [constructor|].
    change (insertion_sort key (x :: l)) with (insert_by key x (insertion_sort key l)).
    revert IH. generalize (insertion_sort key l) as m. clear l. intros m.
    induction m as [|y m IHm]; intros Hs; cbn; [repeat constructor|].
    inversion Hs as [|? ? Hs' F]; subst.
    destruct (key_leb (key x) (key y)) eqn:E.
    + apply key_leb_spec in E. constructor; [exact Hs|]. constructor; [exact E|].
      eapply Forall_impl; [|exact F]. unfold key_le in *. cbn. intros; lia.
    + constructor; [now apply IHm|].
      assert (Hyx : key_le (key y) (key x)).
      { destruct (key_leb (key x) (key y)) eqn:E' in *; [discriminate|].
        assert (~ key_le (key x) (key y)) by (rewrite <- key_leb_spec; congruence). unfold key_le in *. lia. }
      apply Forall_forall. intros z Hz. apply (Permutation_in _ (Ins x m)) in Hz.
      destruct Hz as [<-|Hz]; [exact Hyx|]. rewrite Forall_forall in F. now apply F.
Qed.

(** ** C27: converting triplets to a sparse matrix *)
(** Whatever (correct) sort the standard library uses: the result is well-formed,
    has the shape of the triplet matrix, has structural entries exactly where
    there are triplets, and each is the sum of the triplets there, in some order. *)
Theorem C27_convert : forall (T : Type) (add : T -> T -> T) sort (a : triplet_mat T) ts,
  sorting sort -> holds a ts ->
  exists m, from_triplet_mat add sort a = Done m /\ well_formed_matrix m /\
    shape (m_structure m) = (t_nrows a, t_ncols a) /\
    (forall i j, structural (m_structure m) i j <-> exists v, In (i, j, v) ts) /\
    (forall i j, exists vs, Permutation vs (values_at ts i j) /\
       forall v, entry m i j v <-> total add vs = Some v).
Proof. intros T add sort a ts. exact (convert_spec add sort a ts). Qed.
Print Assumptions C27_convert.

(** When the order of additions does not matter (exact arithmetic), it is the
    sum. *)
Theorem C27_sum : forall (T : Type) (add : T -> T -> T) sort (a : triplet_mat T) ts m,
  (forall x y, add x y = add y x) -> (forall x y z, add x (add y z) = add (add x y) z) ->
  sorting sort -> holds a ts -> from_triplet_mat add sort a = Done m ->
  forall i j v, entry m i j v <-> total add (values_at ts i j) = Some v.
Proof.
  intros T add sort a ts m Hc Ha Hs Hh E i j v.
  destruct (convert_spec add sort a ts Hs Hh) as (m' & E' & _ & _ & _ & H).
  rewrite E in E'. injection E' as <-. destruct (H i j) as (vs & P & Hv).
  rewrite Hv, (total_perm add Hc Ha _ _ P). reflexivity.
Qed.
Print Assumptions C27_sum.

(** Three triplets at one place, two empty columns and an empty row. *)
Example C27_example : sorting insertion_sort /\
  exists (a : triplet_mat nat) m,
    holds a [(2, 1, 5); (0, 3, 7); (2, 1, 10); (1, 1, 3); (2, 1, 100)] /\
    from_triplet_mat Nat.add insertion_sort a = Done m /\
    m = Matrix (Structure 4 4 [1; 2; 0] [0; 0; 2; 2; 3]) [3; 115; 7].
Proof.
  split; [exact insertion_sort_sorting|].
  exists (push_triplet 2 1 100 (push_triplet 1 1 3 (push_triplet 2 1 10 (push_triplet 0 3 7
           (push_triplet 2 1 5 (triplet_new 4 0)))))). eexists.
  split; [|split; [vm_compute; reflexivity|reflexivity]].
  apply (holds_push _ [_; _; _; _]).
  apply (holds_push _ [_; _; _]). apply (holds_push _ [_; _]). apply (holds_push _ [_]).
  apply (holds_push _ []). apply holds_new.
Qed.

(** ** C28: transposition *)
Theorem C28_transpose : forall (T : Type) (add : T -> T -> T) sort (m : matrix T),
  sorting sort -> well_formed_matrix m ->
  exists m', matrix_transpose add sort m = Done m' /\ well_formed_matrix m' /\
    shape (m_structure m') = (s_ncols (m_structure m), s_nrows (m_structure m)) /\
    (forall i j v, entry m' i j v <-> entry m j i v) /\
    (forall i j, structural (m_structure m') i j <-> structural (m_structure m) j i) /\
    matrix_transpose add sort m' = Done m.
Proof. intros T add sort m. exact (transpose_spec add sort m). Qed.
Print Assumptions C28_transpose.

Theorem C28_structure : forall sort s,
  sorting sort -> well_formed s ->
  exists s', structure_transpose sort s = Done s' /\ well_formed s' /\
    shape s' = (s_ncols s, s_nrows s) /\
    (forall i j, structural s' i j <-> structural s j i) /\
    structure_transpose sort s' = Done s.
Proof. exact structure_transpose_spec. Qed.
Print Assumptions C28_structure.

Definition demo_matrix : matrix nat := Matrix (Structure 3 4 [0; 2; 1; 2] [0; 2; 2; 3; 4]) [10; 20; 30; 40].

Lemma demo_matrix_wf : well_formed_matrix demo_matrix.
Proof.
  constructor; [|reflexivity].
  apply (try_from_data_ok 3 4 [0; 2; 1; 2] [0; 2; 2; 3; 4]). vm_compute. reflexivity.
Qed.

Example C28_example : well_formed_matrix demo_matrix /\
  matrix_transpose Nat.add insertion_sort demo_matrix =
    Done (Matrix (Structure 4 3 [0; 2; 0; 3] [0; 1; 2; 4]) [10; 30; 20; 40]).
Proof. split; [exact demo_matrix_wf|vm_compute; reflexivity]. Qed.

(** ** C29: column permutation *)
(** For the structure: column [k] of the result is column [p[k]]. *)
Theorem C29_structure_partial : forall s p,
  well_formed s -> Forall (fun j => j < s_ncols s) p ->
  exists s', structure_permute_columns s p = Done s' /\ well_formed s' /\
    shape s' = (s_nrows s, length p) /\
    (forall i k, structural s' i k <-> exists j, nth_error p k = Some j /\ structural s i j).
Proof.
  intros s p W F. unfold structure_permute_columns.
  destruct (permute_spec s p (repeat tt (length (s_row_indices s))) W (repeat_length _ _) F)
    as (m & E & W' & Hs & H).
  exists (m_structure m). rewrite E. cbn [obind]. auto.
Qed.
Print Assumptions C29_structure_partial.

Example C29_example : structure_permute_columns (m_structure demo_matrix) [3; 0; 2; 1] =
  Done (Structure 3 4 [2; 0; 2; 1] [0; 1; 3; 4; 4]).
Proof. vm_compute. reflexivity. Qed.

(** Missing: the values.  Full statement, which fails: for a matrix, column [k]
    of the result also has the values of column [p[k]].  Every column pushed
    appends the values of the whole matrix. *)
Definition permutes_values : Prop :=
  forall (T : Type) (m : matrix T) p m',
    well_formed_matrix m -> Permutation p (seq 0 (s_ncols (m_structure m))) ->
    matrix_permute_columns m p = Done m' ->
    well_formed_matrix m' /\
    forall i k v, entry m' i k v <-> exists j, nth_error p k = Some j /\ entry m i j v.

Theorem C29_values_refuted : ~ permutes_values.
Proof.
  intros H.
  destruct (H nat (Matrix (Structure 1 2 [0; 0] [0; 1; 2]) [10; 20]) [1; 0]
              (Matrix (Structure 1 2 [0; 0] [0; 1; 2]) [10; 20; 10; 20])) as [W _].
  - constructor; [|reflexivity]. apply (try_from_data_ok 1 2 [0; 0] [0; 1; 2]). vm_compute. reflexivity.
  - cbn. constructor.
  - vm_compute. reflexivity.
  - destruct W as [_ W]. discriminate W.
Qed.
Print Assumptions C29_values_refuted.

(** Not only is there too much: the swap of the two columns leaves the values
    where they were. *)
Theorem C29_swap_refuted :
  matrix_permute_columns (Matrix (Structure 1 2 [0; 0] [0; 1; 2]) [10; 20]) [1; 0] =
    Done (Matrix (Structure 1 2 [0; 0] [0; 1; 2]) [10; 20; 10; 20]) /\
  entry (Matrix (Structure 1 2 [0; 0] [0; 1; 2]) [10; 20]) 0 1 20 /\
  ~ entry (Matrix (Structure 1 2 [0; 0] [0; 1; 2]) [10; 20; 10; 20]) 0 0 20.
Proof.
  split; [vm_compute; reflexivity|]. split.
  - exists 1. split; [|reflexivity]. exists 1, 2. repeat split; lia.
  - intros (k & (a & b & [Ha Hb] & H1 & H2 & _) & H3). cbn in Ha, Hb.
    injection Ha as <-. injection Hb as <-. replace k with 0 in H3 by lia. discriminate H3.
Qed.
Print Assumptions C29_swap_refuted.

(** ** C30: validation *)
(** When it returns, it is right: success means the structure is well-formed
    (and is what was given), an error names a violation. *)
Theorem C30_sound : forall nrows ncols rows ptrs,
  (forall s, try_from_data nrows ncols rows ptrs = Done (inl s) ->
     s = Structure nrows ncols rows ptrs /\ well_formed s) /\
  (forall e, try_from_data nrows ncols rows ptrs = Done (inr e) ->
     violation nrows ncols rows ptrs e /\ ~ well_formed (Structure nrows ncols rows ptrs)).
Proof.
  intros nrows ncols rows ptrs. split; [apply try_from_data_ok|].
  intros e E. apply try_from_data_err in E. split; [exact E|]. eapply violation_ill; eauto.
Qed.
Print Assumptions C30_sound.

(** All well-formed data is accepted. *)
Theorem C30_complete : forall nrows ncols rows ptrs,
  well_formed (Structure nrows ncols rows ptrs) ->
  try_from_data nrows ncols rows ptrs = Done (inl (Structure nrows ncols rows ptrs)).
Proof. exact try_from_data_complete. Qed.
Print Assumptions C30_complete.

(** It returns if no pointer is larger than the number of entries; *)
Theorem C30_returns_partial : forall nrows ncols rows ptrs,
  (forall c p, nth_error ptrs c = Some p -> p <= length rows) ->
  exists r, try_from_data nrows ncols rows ptrs = Done r.
Proof. exact try_from_data_done. Qed.
Print Assumptions C30_returns_partial.

(** but not always: a pointer past the end before a smaller last pointer makes it
    index out of bounds, instead of reporting the unordered pointer. *)
Theorem C30_returns_refuted :
  ~ (forall nrows ncols rows ptrs, exists r, try_from_data nrows ncols rows ptrs = Done r).
Proof. intros H. destruct (H 3 3 [0; 1; 2] [0; 5; 6; 3]) as [r E]. vm_compute in E. discriminate E. Qed.
Print Assumptions C30_returns_refuted.

Example C30_example :
  try_from_data 3 4 [0; 2; 1; 2] [0; 2; 2; 3; 4] = Done (inl (m_structure demo_matrix)) /\
  try_from_data 3 2 [0; 2; 2] [0; 1; 3] = Done (inr (UnorderedIndex 1 2 2 2)) /\
  try_from_data 3 2 [0; 3; 2] [0; 1; 3] = Done (inr (IndexOutOfBounds 1 1 3 3)) /\
  try_from_data 3 2 [0; 1; 2] [0; 5; 3] = Done (inr (UnorderedPointer 1 5 3)).
Proof. repeat split; vm_compute; reflexivity. Qed.

(** The constructors give well-formed structures ([from_triplet_mat], the
    transpositions and the permutation: C27-C29), *)
Theorem C30_identity : forall n,
  well_formed (structure_identity n) /\ shape (structure_identity n) = (n, n) /\
  forall i j, structural (structure_identity n) i j <-> i = j /\ j < n.
Proof.
  intros n. split; [apply identity_wf|]. split; [reflexivity|]. intros; apply identity_structural.
Qed.
Print Assumptions C30_identity.

(** except [empty], whose result is never well-formed: it has no pointers, so
    even reading one of its (empty) columns panics. *)
Theorem C30_empty_refuted : forall nrows ncols,
  ~ well_formed (structure_empty nrows ncols) /\
  forall j, index_column (structure_empty nrows ncols) j = Panic.
Proof.
  intros nrows ncols. split; [|reflexivity].
  intros W. pose proof (wf_count _ W) as H. cbn in H. lia.
Qed.
Print Assumptions C30_empty_refuted.

(** ** C31: the triangular solve *)
(** In exact arithmetic, on a well-formed matrix with at least as many columns as
    rows and nothing below the diagonal: it does not panic, it succeeds exactly
    when no diagonal element is zero, and then the answer solves the system. *)
Theorem C31_upper_partial : forall (m : matrix R) (A : nat -> nat -> R) b,
  let n := s_nrows (m_structure m) in
  well_formed_matrix m -> n <= s_ncols (m_structure m) -> upper_triangular (m_structure m) ->
  represents 0%R m A -> length b = n ->
  exists ok x, solve_upper_triangular m b = Done (ok, x) /\ length x = n /\
    (ok = true <-> forall i, i < n -> A i i <> 0%R) /\
    (ok = true -> forall i, i < n -> product n A x i = nth i b 0%R).
Proof.
  intros m A b n W Hsq Hu HA Hb.
  destruct (triangular_ok m W Hsq zero_zero_R b Hb) as (ok & x & E & Hl & Hok).
  exists ok, x. split; [exact E|]. split; [exact Hl|]. split.
  - rewrite Hok. split; intros H i Hi.
    + apply (solvable_R m W A HA i). now apply H.
    + apply (solvable_R m W A HA i). split; [now apply H|]. intros r Hr. now apply Hu.
  - intros ->. apply (triangular_solve m W Hsq A HA b x E).
Qed.
Print Assumptions C31_upper_partial.

(** With entries below the diagonal it may fail, but what it answers is right. *)
Theorem C31_sound : forall (m : matrix R) (A : nat -> nat -> R) b x,
  let n := s_nrows (m_structure m) in
  well_formed_matrix m -> n <= s_ncols (m_structure m) -> represents 0%R m A ->
  solve_upper_triangular m b = Done (true, x) ->
  forall i, i < n -> product n A x i = nth i b 0%R.
Proof. intros m A b x n W Hsq HA E. apply (triangular_solve m W Hsq A HA b x E). Qed.
Print Assumptions C31_sound.

(** In binary64: it does not panic, and it succeeds exactly when every diagonal
    entry is there, is not zero and is the last of its column. *)
Theorem C31_float_partial : forall (m : matrix f64) b,
  let n := s_nrows (m_structure m) in
  well_formed_matrix m -> n <= s_ncols (m_structure m) -> length b = n ->
  exists ok x, solve_upper_triangular m b = Done (ok, x) /\ length x = n /\
    (ok = true <-> forall i, i < n -> exists v,
       entry m i i v /\ neqb v nzero = false /\ forall r, structural (m_structure m) r i -> r <= i).
Proof.
  intros m b n W Hsq Hb.
  assert (Z : neqb (nzero : f64) nzero = true) by reflexivity.
  destruct (triangular_ok m W Hsq Z b Hb) as (ok & x & E & Hl & Hok).
  exists ok, x. split; [exact E|]. split; [exact Hl|]. rewrite Hok.
  split; intros H i Hi; destruct (H i Hi) as (v & H1); exists v; unfold pivot in *; tauto.
Qed.
Print Assumptions C31_float_partial.

Definition upper_matrix : matrix R :=
  Matrix (Structure 3 3 [0; 0; 1; 1; 2] [0; 1; 3; 5]) [1; -2; 4; 1; 2]%R.

(** The example of the documentation. *)
Example C31_example :
  let A := fun i j => nth j (nth i [[1; -2; 0]; [0; 4; 1]; [0; 0; 2]]%R []) 0%R in
  well_formed_matrix upper_matrix /\ upper_triangular (m_structure upper_matrix) /\
  represents 0%R upper_matrix A /\
  (forall i, i < 3 -> A i i <> 0%R).
Proof.
  intros A.
  assert (W : well_formed_matrix upper_matrix).
  { constructor; [|reflexivity].
    apply (try_from_data_ok 3 3 [0; 0; 1; 1; 2] [0; 1; 3; 5]). vm_compute. reflexivity. }
  assert (St : forall i j k, stored (m_structure upper_matrix) i j k <->
    In (i, j, k) [(0, 0, 0); (0, 1, 1); (1, 1, 2); (1, 2, 3); (2, 2, 4)]).
  { intros i j k. split.
    - intros (a & b & [Ha Hb] & H1 & H2 & H3). cbn in *.
      do 3 (destruct j as [|j]; [cbn in Ha, Hb; injection Ha as <-; injection Hb as <-;
        do 5 (destruct k as [|k]; [cbn in H3; injection H3 as <-; try lia; cbn; tauto|]); lia|]).
      cbn in Hb. destruct j; discriminate Hb.
    - cbn. intros [X|[X|[X|[X|[X|[]]]]]]; injection X as <- <- <-; unfold stored, column; cbn;
        do 2 eexists; repeat split; try reflexivity; lia. }
  split; [exact W|]. split; [|split].
  - intros i j [k Hk]. apply St in Hk. cbn in Hk.
    destruct Hk as [X|[X|[X|[X|[X|[]]]]]]; injection X as <- <- <-; lia.
  - intros i j.
    assert (Hn : forall i j, (forall k, ~ In (i, j, k) [(0, 0, 0); (0, 1, 1); (1, 1, 2); (1, 2, 3); (2, 2, 4)]) ->
      ~ structural (m_structure upper_matrix) i j).
    { intros i' j' H [k Hk]. apply St in Hk. now apply (H k). }
    assert (Hy : forall i j k v, In (i, j, k) [(0, 0, 0); (0, 1, 1); (1, 1, 2); (1, 2, 3); (2, 2, 4)] ->
      nth_error (m_values upper_matrix) k = Some v -> entry upper_matrix i j v).
    { intros i' j' k v H Hv. exists k. split; [now apply St|exact Hv]. }
    destruct i as [|[|[|i]]]; destruct j as [|[|[|j]]];
      try (left; eapply Hy; [cbn; tauto|reflexivity]);
      (right; split; [try (destruct i); try (destruct j); reflexivity|
        apply Hn; intros k Hk; cbn in Hk;
        destruct Hk as [X|[X|[X|[X|[X|[]]]]]]; inversion X]).
  - intros [|[|[|i]]] Hi; cbn; try lra. lia.
Qed.

(** Missing: lower-triangular entries are not ignored.  An entry below the
    diagonal, even an explicit zero, makes the solve report failure although the
    upper triangle is invertible; the documentation says it is ignored. *)
Theorem C31_lower_refuted :
  let m := Matrix (Structure 2 2 [0; 1; 1] [0; 2; 3]) [1; 0; 1]%R in
  well_formed_matrix m /\ entry m 0 0 1%R /\ entry m 1 1 1%R /\
  forall b0 b1, solve_upper_triangular m [b0; b1] <> Done (true, [b0; b1]) /\
    exists x, solve_upper_triangular m [b0; b1] = Done (false, x).
Proof.
  intros m.
  assert (W : well_formed_matrix m).
  { constructor; [|reflexivity]. apply (try_from_data_ok 2 2 [0; 1; 1] [0; 2; 3]). vm_compute. reflexivity. }
  assert (S10 : structural (m_structure m) 1 0).
  { exists 1, 0, 2. repeat split; lia. }
  split; [exact W|]. split.
  { exists 0. split; [|reflexivity]. exists 0, 2. repeat split; lia. }
  split.
  { exists 2. split; [|reflexivity]. exists 2, 3. repeat split; lia. }
  intros b0 b1.
  destruct (triangular_ok m W (le_n _) zero_zero_R [b0; b1] eq_refl) as (ok & x & E & _ & Hok).
  assert (ok = false).
  { destruct ok; [|reflexivity]. destruct (proj1 Hok eq_refl 0) as (v & [_ G] & _); [cbn; lia|].
    specialize (G 1 S10). lia. }
  subst ok. rewrite E. split; [congruence|eauto].
Qed.
Print Assumptions C31_lower_refuted.

(** And a matrix with more rows than columns makes it panic (the documented
    panic is only for a right-hand side of the wrong length). *)
Theorem C31_tall_refuted : forall (F : Type) (NF : Num F) (m : matrix F) b,
  well_formed_matrix m -> s_ncols (m_structure m) < s_nrows (m_structure m) ->
  length b = s_nrows (m_structure m) -> solve_upper_triangular m b = Panic.
Proof.
  intros F NF m b [W _] Ht Hb. unfold solve_upper_triangular. rewrite Hb, Nat.eqb_refl. cbn [oassert obind].
  destruct (s_nrows (m_structure m)) as [|n] eqn:E; [lia|].
  rewrite rev_seq_S. cbn [triangular_rounds]. unfold triangular_step, matrix_column, index_column_range.
  rewrite (wf_count _ W). destruct (Nat.leb_spec (s_ncols (m_structure m) + 1) (n + 1)); [reflexivity|lia].
Qed.
Print Assumptions C31_tall_refuted.
