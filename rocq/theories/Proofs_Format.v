(** Validation of the sparse format *)
From Coq Require Import List Arith Bool Lia Permutation Sorted.
From Verif Require Import Outcome Lib ModelSparse Spec_Sparse Proofs_Sparse.
Import ListNotations.

Lemma identity_wf n : well_formed (structure_identity n).
Proof.
  constructor; cbn [structure_identity s_nrows s_ncols s_row_indices s_column_pointers].
  - apply seq_length.
  - rewrite nth_error_seq. destruct (Nat.ltb_spec 0 (n + 1)); [reflexivity|lia].
  - rewrite nth_error_seq, seq_length. destruct (Nat.ltb_spec n (n + 1)); [reflexivity|lia].
  - intros j a b [Ha Hb]. cbn [structure_identity s_nrows s_ncols s_row_indices s_column_pointers] in *. rewrite nth_error_seq in *.
    destruct (Nat.ltb_spec j (n + 1)), (Nat.ltb_spec (S j) (n + 1)); try discriminate.
    injection Ha as <-. injection Hb as <-. lia.
  - intros k i H. rewrite nth_error_seq in H. destruct (Nat.ltb_spec k n); [|discriminate]. injection H as <-. lia.
  - intros j a b k i i' _ _ _ H H'. rewrite nth_error_seq in *.
    destruct (Nat.ltb_spec k n), (Nat.ltb_spec (S k) n); try discriminate.
    injection H as <-. injection H' as <-. lia.
Qed.

Lemma identity_structural n i j : structural (structure_identity n) i j <-> i = j /\ j < n.
Proof.
  unfold structural, stored, column. cbn [structure_identity s_nrows s_ncols s_row_indices s_column_pointers]. split.
  - intros (k & a & b & [Ha Hb] & H1 & H2 & H3). rewrite !nth_error_seq in *.
    destruct (Nat.ltb_spec j (n + 1)), (Nat.ltb_spec (S j) (n + 1)), (Nat.ltb_spec k n); try discriminate.
    injection Ha as <-. injection Hb as <-. injection H3 as <-. lia.
  - intros [-> H]. exists j, j, (S j). rewrite !nth_error_seq.
    destruct (Nat.ltb_spec j (n + 1)), (Nat.ltb_spec (S j) (n + 1)), (Nat.ltb_spec j n); try lia.
    repeat split; lia.
Qed.

Section Check.
  Variables nrows : nat.
  Variables rows : list nat.

  Lemma nth_segment a b k :
    nth_error (skipn a (firstn b rows)) k = if a + k <? b then nth_error rows (a + k) else None.
  Proof. rewrite nth_error_skipn, nth_error_firstn. reflexivity. Qed.

  (** The segment of [rows] from [idx] to [stop] is checked against [prev]. *)
  Lemma check_rows_spec col idx prev seg :
    match check_rows nrows col idx prev seg with
    | None => forall k i, nth_error seg k = Some i ->
        i < nrows /\ (k = 0 -> prev < i) /\
        (forall i', k <> 0 -> nth_error seg (k - 1) = Some i' -> i' < i)
    | Some e => exists k i, nth_error seg k = Some i /\
        ((e = IndexOutOfBounds col (idx + k) i nrows /\ nrows <= i) \/
         (exists p, e = UnorderedIndex col (idx + k) p i /\ i <= p /\
            (k = 0 -> p = prev) /\ (k <> 0 -> nth_error seg (k - 1) = Some p)))
    end.
  Proof.
    revert idx prev; induction seg as [|r seg IH]; intros idx prev; cbn [check_rows].
    - intros k i H. destruct k; discriminate.
    - destruct (Nat.leb_spec nrows r) as [Hr|Hr].
      { exists 0, r. split; [reflexivity|]. left. rewrite Nat.add_0_r. auto. }
      destruct (Nat.leb_spec r prev) as [Hp|Hp].
      { exists 0, r. split; [reflexivity|]. right. exists prev. rewrite Nat.add_0_r.
        repeat split; auto. congruence. }
      specialize (IH (S idx) r). destruct (check_rows nrows col (S idx) r seg) as [e|].
      + destruct IH as (k & i & Hk & He). exists (S k), i. split; [exact Hk|].
        destruct He as [[-> He]|(p & -> & Hi & H0 & H1)].
        * left. split; [f_equal; lia|exact He].
        * right. exists p. split; [f_equal; lia|]. split; [exact Hi|]. split; [discriminate|].
          intros _. destruct k as [|k].
          -- cbn. now rewrite H0.
          -- cbn [Nat.sub nth_error]. rewrite <- (H1 ltac:(lia)). f_equal. lia.
      + intros [|k] i Hk; cbn [nth_error] in Hk.
        * injection Hk as <-. repeat split; auto. congruence.
        * destruct (IH k i Hk) as (A & B & D). split; [exact A|]. split; [discriminate|].
          intros i' _ Hi'. destruct k as [|k].
          -- cbn in Hi'. injection Hi' as <-. auto.
          -- cbn [Nat.sub nth_error] in Hi'. apply D; [discriminate|].
             cbn [Nat.sub]. now rewrite Nat.sub_0_r.
  Qed.

  Variables (ncols : nat) (ptrs : list nat).
  Hypothesis Hlen : length ptrs = ncols + 1.

  Definition column_ok (j : nat) : Prop :=
    forall a b, nth_error ptrs j = Some a -> nth_error ptrs (S j) = Some b ->
      a <= b /\
      (forall k i, a <= k < b -> nth_error rows k = Some i -> i < nrows) /\
      (forall k i i', a <= k -> S k < b -> nth_error rows k = Some i -> nth_error rows (S k) = Some i' -> i < i').

  Lemma check_column_spec j r :
    j < ncols -> check_column nrows rows ptrs j = Done r ->
    match r with
    | None => column_ok j
    | Some e => violation nrows ncols rows ptrs e
    end.
  Proof.
    intros Hj. unfold check_column, oget. replace (j + 1) with (S j) by lia.
    destruct (nth_error_ex ptrs j) as [a Ha]; [lia|]. destruct (nth_error_ex ptrs (S j)) as [b Hb]; [lia|].
    rewrite Ha, Hb. cbn [obind].
    destruct (Nat.ltb_spec b a) as [Hba|Hba].
    { intros E; injection E as <-. cbn. auto. }
    destruct (Nat.ltb_spec a b) as [Hab|Hab].
    2:{ intros E; injection E as <-. intros a' b' Ha' Hb'.
        rewrite Ha in Ha'. rewrite Hb in Hb'. injection Ha' as <-. injection Hb' as <-.
        repeat split; intros; lia. }
    destruct (nth_error rows a) as [p|] eqn:Ep; [|discriminate]. cbn [obind].
    destruct (Nat.leb_spec nrows p) as [Hp|Hp].
    { intros E; injection E as <-. cbn. split; [exact Hj|]. split; [|auto]. exists a, b. repeat split; auto; lia. }
    intros E; injection E as <-.
    pose proof (check_rows_spec j (a + 1) p (skipn (a + 1) (firstn b rows))) as G.
    destruct (check_rows nrows j (a + 1) p (skipn (a + 1) (firstn b rows))) as [e|].
    - destruct G as (k & i & Hk & He). rewrite nth_segment in Hk.
      destruct (Nat.ltb_spec (a + 1 + k) b) as [Hkb|]; [|discriminate].
      destruct He as [[-> He]|(q & -> & Hi & H0 & H1)]; cbn.
      + split; [exact Hj|]. split; [exists a, b; repeat split; auto; lia|]. auto.
      + split; [exact Hj|]. split; [exists a, b; repeat split; auto; lia|]. split; [|auto].
        destruct k as [|k].
        * rewrite H0 by reflexivity. now replace (a + 1 + 0 - 1) with a by lia.
        * specialize (H1 ltac:(lia)). cbn [Nat.sub] in H1. rewrite nth_segment in H1.
          destruct (a + 1 + (k - 0) <? b); [|discriminate].
          now replace (a + 1 + S k - 1) with (a + 1 + (k - 0)) by lia.
    - intros a' b' Ha' Hb'. rewrite Ha in Ha'. rewrite Hb in Hb'. injection Ha' as <-. injection Hb' as <-.
      assert (Seg : forall k i, a < k < b -> nth_error rows k = Some i ->
        nth_error (skipn (a + 1) (firstn b rows)) (k - a - 1) = Some i).
      { intros k i Hk Hi. rewrite nth_segment. replace (a + 1 + (k - a - 1)) with k by lia.
        destruct (Nat.ltb_spec k b); [exact Hi|lia]. }
      split; [lia|]. split.
      + intros k i Hk Hi. destruct (Nat.eq_dec k a) as [->|Hka]; [congruence|].
        apply (G (k - a - 1) i). apply Seg; [lia|exact Hi].
      + intros k i i' Hka Hkb Hi Hi'.
        destruct (G (S k - a - 1) i' (Seg (S k) i' ltac:(lia) Hi')) as (_ & G0 & G1).
        destruct (Nat.eq_dec k a) as [->|Hne].
        * rewrite Ep in Hi. injection Hi as <-. apply G0. lia.
        * apply G1; [lia|]. replace (S k - a - 1 - 1) with (k - a - 1) by lia. apply Seg; [lia|exact Hi].
  Qed.

  Lemma check_columns_spec cols r :
    Forall (fun j => j < ncols) cols -> check_columns nrows rows ptrs cols = Done r ->
    match r with
    | None => Forall column_ok cols
    | Some e => violation nrows ncols rows ptrs e
    end.
  Proof.
    induction 1 as [|j cols Hj _ IH]; cbn [check_columns].
    - intros E; injection E as <-. constructor.
    - intros E. apply obind_done in E. destruct E as (e & E1 & E2).
      apply (check_column_spec j e Hj) in E1. destruct e as [e|].
      + injection E2 as <-. exact E1.
      + specialize (IH E2). destruct r; [exact IH|]. constructor; assumption.
  Qed.

  (** When the pointers never pass the number of entries, no index is out of bounds. *)
  Lemma check_column_done j :
    j < ncols -> (forall c p, nth_error ptrs c = Some p -> p <= length rows) ->
    exists r, check_column nrows rows ptrs j = Done r.
  Proof.
    intros Hj Hp. unfold check_column, oget. replace (j + 1) with (S j) by lia.
    destruct (nth_error_ex ptrs j) as [a Ha]; [lia|]. destruct (nth_error_ex ptrs (S j)) as [b Hb]; [lia|].
    rewrite Ha, Hb. cbn [obind]. destruct (b <? a); [eauto|].
    destruct (Nat.ltb_spec a b); [|eauto].
    destruct (nth_error_ex rows a) as [p Ep]; [specialize (Hp _ _ Hb); lia|].
    rewrite Ep. cbn [obind]. destruct (nrows <=? p); eauto.
  Qed.

  Lemma check_columns_done cols :
    Forall (fun j => j < ncols) cols -> (forall c p, nth_error ptrs c = Some p -> p <= length rows) ->
    exists r, check_columns nrows rows ptrs cols = Done r.
  Proof.
    intros F Hp. induction F as [|j cols Hj _ IH]; cbn [check_columns]; [eauto|].
    destruct (check_column_done j Hj Hp) as [r E]. rewrite E. cbn [obind]. destruct r; eauto.
  Qed.
End Check.

Lemma seq_lt n : Forall (fun j => j < n) (seq 0 n).
Proof. apply Forall_forall. intros j Hj. apply in_seq in Hj. lia. Qed.

Lemma try_from_data_ok nrows ncols rows ptrs s :
  try_from_data nrows ncols rows ptrs = Done (inl s) ->
  s = Structure nrows ncols rows ptrs /\ well_formed s.
Proof.
  unfold try_from_data. destruct (Nat.eqb_spec (length ptrs) (ncols + 1)) as [Hl|]; cbn [negb]; [|discriminate].
  intros H. apply obind_done in H. destruct H as (p0 & H0 & H). apply oget_done in H0.
  destruct (Nat.eqb_spec p0 0) as [->|]; cbn [negb] in H; [|discriminate].
  apply obind_done in H. destruct H as (pn & Hn & H). apply oget_done in Hn.
  destruct (Nat.eqb_spec pn (length rows)) as [->|]; cbn [negb] in H; [|discriminate].
  apply obind_done in H. destruct H as (e & He & H).
  pose proof (check_columns_spec nrows rows ncols ptrs Hl _ _ (seq_lt ncols) He) as G.
  destruct e; [discriminate|]. injection H as <-. split; [reflexivity|].
  rewrite Forall_forall in G.
  assert (Gj : forall j, S j < length ptrs -> column_ok nrows rows ptrs j).
  { intros j Hj. apply G, in_seq. lia. }
  assert (Ord : forall j a b, nth_error ptrs j = Some a -> nth_error ptrs (S j) = Some b -> a <= b).
  { intros j a b Ha Hb. assert (Hj : S j < length ptrs) by (apply nth_error_lt in Hb; exact Hb).
    apply (Gj j Hj a b Ha Hb). }
  constructor; cbn; auto.
  - intros j a b [Ha Hb]. eauto.
  - (* every position is in some column *)
    intros k i Hi.
    assert (Hk : k < length rows) by (apply nth_error_lt in Hi; exact Hi).
    assert (X : forall n p, nth_error ptrs n = Some p -> k < p ->
      exists j a b, nth_error ptrs j = Some a /\ nth_error ptrs (S j) = Some b /\ a <= k < b).
    { induction n as [|n IH]; intros p Hp Hkp.
      - rewrite H0 in Hp. injection Hp as <-. lia.
      - destruct (nth_error_ex ptrs n) as [q Hq]; [apply nth_error_lt in Hp; lia|].
        destruct (le_lt_dec q k) as [Hqk|Hqk]; [exists n, q, p; auto|]. eapply IH; eauto. }
    destruct (X _ _ Hn Hk) as (j & a & b & Ha & Hb & Hab).
    destruct (Gj j ltac:(apply nth_error_lt in Hb; exact Hb) a b Ha Hb) as (_ & B & _). eauto.
  - intros j a b k i i' [Ha Hb]. cbn [s_column_pointers] in Ha, Hb.
    destruct (Gj j ltac:(apply nth_error_lt in Hb; exact Hb) a b Ha Hb) as (_ & _ & B). eauto.
Qed.

Lemma try_from_data_err nrows ncols rows ptrs e :
  try_from_data nrows ncols rows ptrs = Done (inr e) -> violation nrows ncols rows ptrs e.
Proof.
  unfold try_from_data. destruct (Nat.eqb_spec (length ptrs) (ncols + 1)) as [Hl|Hl]; cbn [negb].
  2:{ intros H; injection H as <-. cbn. auto. }
  intros H. apply obind_done in H. destruct H as (p0 & H0 & H). apply oget_done in H0.
  destruct (Nat.eqb_spec p0 0) as [->|]; cbn [negb] in H; [|injection H as <-; cbn; auto].
  apply obind_done in H. destruct H as (pn & Hn & H). apply oget_done in Hn.
  destruct (Nat.eqb_spec pn (length rows)) as [->|]; cbn [negb] in H; [|injection H as <-; cbn; auto].
  apply obind_done in H. destruct H as (e' & He & H).
  pose proof (check_columns_spec nrows rows ncols ptrs Hl _ _ (seq_lt ncols) He) as G.
  destruct e'; [|discriminate]. injection H as <-. exact G.
Qed.

(** A violation contradicts well-formedness. *)
Lemma violation_ill nrows ncols rows ptrs e :
  violation nrows ncols rows ptrs e -> ~ well_formed (Structure nrows ncols rows ptrs).
Proof.
  intros V W. destruct e; cbn in V.
  - pose proof (wf_count _ W) as H. cbn in H. lia.
  - pose proof (wf_start _ W) as H. cbn in H. destruct V as [V1 V2]. congruence.
  - pose proof (wf_end _ W) as H. cbn in H. destruct V as (V1 & V2 & V3). congruence.
  - destruct V as (V1 & V2 & V3 & V4). pose proof (wf_ordered _ W _ _ _ (conj V2 V3)). lia.
  - destruct V as (V1 & (a & b & Ha & Hb & Hk) & V2 & V3 & V4).
    pose proof (wf_increasing _ W _ _ _ (idx - 1) prev got (conj Ha Hb) ltac:(lia) ltac:(lia) V2) as G.
    replace (S (idx - 1)) with idx in G by lia. specialize (G V3). lia.
  - destruct V as (V1 & _ & V2 & -> & V3). pose proof (wf_bound _ W _ _ V2) as G. cbn in G. lia.
Qed.

Lemma try_from_data_done nrows ncols rows ptrs :
  (forall c p, nth_error ptrs c = Some p -> p <= length rows) ->
  exists r, try_from_data nrows ncols rows ptrs = Done r.
Proof.
  intros Hp. unfold try_from_data.
  destruct (Nat.eqb_spec (length ptrs) (ncols + 1)) as [Hl|]; cbn [negb]; [|eauto].
  destruct (oget_ok ptrs 0) as [p0 H0]; [lia|]. rewrite H0. cbn [obind].
  destruct (p0 =? 0); cbn [negb]; [|eauto].
  destruct (oget_ok ptrs ncols) as [pn Hn]; [lia|]. rewrite Hn. cbn [obind].
  destruct (pn =? length rows); cbn [negb]; [|eauto].
  destruct (check_columns_done nrows rows ncols ptrs Hl (seq 0 ncols) (seq_lt ncols) Hp) as [r E].
  rewrite E. cbn [obind]. destruct r; eauto.
Qed.

Lemma wf_pointers_le s c p :
  well_formed s -> nth_error (s_column_pointers s) c = Some p -> p <= length (s_row_indices s).
Proof.
  intros W H. pose proof (wf_end _ W) as He. pose proof (pointers_sorted s W) as Hs.
  assert (Hc : c <= s_ncols s). { apply nth_error_lt in H. rewrite (wf_count _ W) in H. lia. }
  destruct (Nat.eq_dec c (s_ncols s)) as [->|]; [rewrite H in He; injection He as ->; lia|].
  exact (strongly_nth _ _ _ _ _ _ Hs H He ltac:(lia)).
Qed.

Lemma try_from_data_complete nrows ncols rows ptrs :
  well_formed (Structure nrows ncols rows ptrs) ->
  try_from_data nrows ncols rows ptrs = Done (inl (Structure nrows ncols rows ptrs)).
Proof.
  intros W. destruct (try_from_data_done nrows ncols rows ptrs) as [[s|e] E].
  - intros c p H. exact (wf_pointers_le _ c p W H).
  - rewrite E. destruct (try_from_data_ok _ _ _ _ _ E) as [-> _]. reflexivity.
  - destruct (violation_ill _ _ _ _ _ (try_from_data_err _ _ _ _ _ E) W).
Qed.
