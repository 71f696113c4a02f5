(** Sparse columns laid out one after the other *)
From Coq Require Import List Arith Lia.
From Verif Require Import Outcome Lib ModelSparse ModelForest ModelCholesky Proofs_Sparse.
Import ListNotations.
Local Open Scope nat_scope.

(** Where column [j] starts *)
Definition offset {A} (cols : list (list A)) (j : nat) : nat := length (concat (firstn j cols)).

Lemma offset_0 {A} (cols : list (list A)) : offset cols 0 = 0.
Proof. reflexivity. Qed.

Lemma offset_S {A} (cols : list (list A)) j c :
  nth_error cols j = Some c -> offset cols (S j) = offset cols j + length c.
Proof.
  unfold offset. revert j. induction cols as [|c0 cols IH]; intros j H; [destruct j; discriminate|].
  destruct j as [|j]; cbn [nth_error] in H.
  - injection H as ->. cbn. rewrite app_nil_r. lia.
  - change (firstn (S (S j)) (c0 :: cols)) with (c0 :: firstn (S j) cols).
    change (firstn (S j) (c0 :: cols)) with (c0 :: firstn j cols).
    cbn [concat]. rewrite !app_length, IH by exact H. lia.
Qed.

Lemma offset_all {A} (cols : list (list A)) : offset cols (length cols) = length (concat cols).
Proof. unfold offset. now rewrite firstn_all. Qed.

Lemma offset_same {A B} (cols : list (list A)) (vals : list (list B)) j :
  map (@length _) cols = map (@length _) vals -> offset cols j = offset vals j.
Proof.
  unfold offset. revert vals j. induction cols as [|c cols IH]; intros [|v vals] j H; try discriminate; [now destruct j|].
  cbn [map] in H. injection H as H1 H2. destruct j as [|j]; [reflexivity|].
  cbn [firstn concat]. rewrite !app_length, H1, (IH vals j H2). reflexivity.
Qed.

Lemma offset_total {A} (cols : list (list A)) j : j <= length cols -> offset cols j <= length (concat cols).
Proof.
  intros H. unfold offset. rewrite <- (firstn_skipn j cols) at 2. rewrite concat_app, app_length. lia.
Qed.

Lemma prefix_sum_from_nth s l j :
  j < length l -> nth_error (prefix_sum_from s l) j = Some (s + list_sum (firstn (S j) l)).
Proof.
  revert s j. induction l as [|x l IH]; intros s j H; [cbn in H; lia|].
  cbn [prefix_sum_from]. destruct j as [|j].
  - cbn. f_equal. lia.
  - cbn [nth_error]. rewrite IH by (cbn in H; lia).
    change (firstn (S (S j)) (x :: l)) with (x :: firstn (S j) l). cbn [list_sum fold_right].
    unfold list_sum. f_equal. lia.
Qed.

Lemma list_sum_lengths {A} (cols : list (list A)) : list_sum (map (@length A) cols) = length (concat cols).
Proof. induction cols as [|c cols IH]; [reflexivity|]. cbn. rewrite app_length. unfold list_sum in IH. now rewrite IH. Qed.

Lemma pointers_nth {A} (cols : list (list A)) j :
  j <= length cols -> nth_error (pointers_of (map (@length A) cols)) j = Some (offset cols j).
Proof.
  intros H. unfold pointers_of. destruct j as [|j]; [reflexivity|]. cbn [nth_error].
  unfold prefix_sum. rewrite prefix_sum_from_nth by (rewrite map_length; lia).
  rewrite firstn_map, list_sum_lengths. reflexivity.
Qed.

Lemma pointers_length counts : length (pointers_of counts) = S (length counts).
Proof.
  unfold pointers_of. cbn [length]. f_equal. unfold prefix_sum. generalize 0.
  induction counts as [|x l IH]; intros s; [reflexivity|]. cbn. now rewrite IH.
Qed.

Lemma segment {A} (cols : list (list A)) j c :
  nth_error cols j = Some c ->
  concat cols = concat (firstn j cols) ++ c ++ concat (skipn (S j) cols).
Proof.
  revert j. induction cols as [|c0 cols IH]; intros j H; [destruct j; discriminate|].
  destruct j as [|j]; cbn [nth_error] in H.
  - injection H as ->. reflexivity.
  - cbn [firstn skipn concat]. rewrite <- app_assoc. f_equal. now apply IH.
Qed.

Lemma slice_concat {A} (cols : list (list A)) j c :
  nth_error cols j = Some c -> oslice (concat cols) (offset cols j) (offset cols (S j)) = Done c.
Proof.
  intros H. rewrite (offset_S _ _ _ H).
  pose proof (segment _ _ _ H) as S1.
  assert (Hl : length (concat cols) = offset cols j + length c + length (concat (skipn (S j) cols))).
  { rewrite S1, !app_length. unfold offset. lia. }
  rewrite oslice_ok by lia. replace (offset cols j + length c - offset cols j) with (length c) by lia.
  rewrite S1. unfold offset.
  rewrite skipn_app, skipn_all, Nat.sub_diag. cbn [skipn app].
  rewrite firstn_app, firstn_all, Nat.sub_diag. cbn [firstn]. rewrite app_nil_r. reflexivity.
Qed.

Lemma lset_split {A} (l : list A) j x :
  j < length l -> lset l j x = firstn j l ++ x :: skipn (S j) l.
Proof.
  revert j. induction l as [|a l IH]; intros j H; [cbn in H; lia|].
  destruct j as [|j]; [reflexivity|]. cbn [lset firstn skipn app]. f_equal. apply IH. cbn in H. lia.
Qed.

Lemma concat_lset {A} (cols : list (list A)) j c v :
  nth_error cols j = Some c ->
  concat (lset cols j v) =
  firstn (offset cols j) (concat cols) ++ v ++ skipn (offset cols (S j)) (concat cols).
Proof.
  intros H. rewrite lset_split by (eapply nth_error_lt; eauto). rewrite concat_app. cbn [concat].
  rewrite (offset_S _ _ _ H). pose proof (segment _ _ _ H) as S1. unfold offset. rewrite S1 at 1 2.
  f_equal; [|f_equal].
  - rewrite firstn_app, firstn_all, Nat.sub_diag. cbn [firstn]. now rewrite app_nil_r.
  - rewrite app_assoc, <- app_length, skipn_app, skipn_all, Nat.sub_diag. reflexivity.
Qed.

Lemma lset_app1 {A} (l m : list A) i x : i < length l -> lset (l ++ m) i x = lset l i x ++ m.
Proof.
  revert i. induction l as [|a l IH]; intros i H; [cbn in H; lia|].
  destruct i as [|i]; [reflexivity|]. cbn. f_equal. apply IH. cbn in H. lia.
Qed.
Lemma lset_app2 {A} (l m : list A) i x : lset (l ++ m) (length l + i) x = l ++ lset m i x.
Proof. induction l as [|a l IH]; [reflexivity|]. cbn. now rewrite IH. Qed.

Lemma oset_concat {A} (cols : list (list A)) j c idx x :
  nth_error cols j = Some c -> idx < length c ->
  oset (concat cols) (offset cols j + idx) x = Done (concat (lset cols j (lset c idx x))).
Proof.
  intros H Hi. pose proof (segment _ _ _ H) as S1.
  assert (Hl : offset cols j + idx < length (concat cols)).
  { rewrite S1, !app_length. unfold offset. lia. }
  rewrite oset_ok by exact Hl. f_equal. rewrite lset_split with (l := cols) by (eapply nth_error_lt; eauto).
  rewrite concat_app. cbn [concat]. rewrite S1 at 1. unfold offset. rewrite lset_app2, lset_app1 by exact Hi.
  reflexivity.
Qed.

(** The structure with these columns *)
Definition layout (nrows : nat) (cols : list (list nat)) : structure :=
  Structure nrows (length cols) (concat cols) (pointers_of (map (@length nat) cols)).

Lemma layout_range nrows cols j :
  j < length cols -> index_column_range (layout nrows cols) j = Done (offset cols j, offset cols (S j)).
Proof.
  intros H. unfold index_column_range. cbn [layout s_column_pointers].
  rewrite pointers_length, map_length. destruct (Nat.leb_spec (S (length cols)) (j + 1)); [lia|].
  unfold oget. rewrite !pointers_nth by lia. cbn [obind]. now rewrite Nat.add_1_r.
Qed.

Lemma layout_column nrows cols j c :
  nth_error cols j = Some c -> index_column (layout nrows cols) j = Done c.
Proof.
  intros H. unfold index_column. rewrite layout_range by (eapply nth_error_lt; eauto). cbn [obind].
  now apply slice_concat.
Qed.

Lemma layout_pointer nrows cols j :
  j <= length cols -> oget (s_column_pointers (layout nrows cols)) j = Done (offset cols j).
Proof. intros H. unfold oget. cbn [layout s_column_pointers]. now rewrite pointers_nth. Qed.

Lemma map_lset {A B} (f : A -> B) l j x : map f (lset l j x) = lset (map f l) j (f x).
Proof. revert j. induction l as [|a l IH]; intros [|j]; cbn; try reflexivity. now rewrite IH. Qed.
Lemma lset_same {A} (l : list A) j x : nth_error l j = Some x -> lset l j x = l.
Proof.
  revert j. induction l as [|a l IH]; intros [|j] H; cbn in *; try discriminate; [now injection H as ->|].
  f_equal. now apply IH.
Qed.
Lemma lset_lset {A} (l : list A) j x y : lset (lset l j x) j y = lset l j y.
Proof. revert j. induction l as [|a l IH]; intros [|j]; cbn; try reflexivity. now rewrite IH. Qed.

Lemma lengths_lset {A B} (cols : list (list A)) (vals : list (list B)) j c v :
  map (@length _) vals = map (@length _) cols -> nth_error cols j = Some c -> length v = length c ->
  map (@length _) (lset vals j v) = map (@length _) cols.
Proof.
  intros H Hc Hv. rewrite map_lset, H, Hv. apply lset_same. now apply map_nth_error.
Qed.

Lemma lengths_nth {A B} (cols : list (list A)) (vals : list (list B)) j c :
  map (@length _) vals = map (@length _) cols -> nth_error cols j = Some c ->
  exists v, nth_error vals j = Some v /\ length v = length c.
Proof.
  intros H Hc. assert (Hj : j < length vals).
  { rewrite <- (map_length (@length B)), H, map_length. eapply nth_error_lt; eauto. }
  destruct (nth_error_ex _ _ Hj) as (v & Hv). exists v. split; [exact Hv|].
  apply (map_nth_error (@length _)) in Hv, Hc. rewrite H in Hv. congruence.
Qed.

Lemma enumerate_nth {A} (l : list A) k : nth_error (enumerate l) k = option_map (fun a => (k, a)) (nth_error l k).
Proof.
  unfold enumerate. rewrite nth_error_combine, nth_error_seq.
  destruct (Nat.ltb_spec k (length l)) as [H|H].
  - destruct (nth_error l k); reflexivity.
  - apply nth_error_None in H. now rewrite H.
Qed.
Lemma enumerate_length {A} (l : list A) : length (enumerate l) = length l.
Proof. unfold enumerate. rewrite combine_length, seq_length. lia. Qed.
Lemma enumerate_snd {A} (l : list A) : map snd (enumerate l) = l.
Proof.
  apply nth_error_ext. intros k. rewrite nth_error_map, enumerate_nth. now destruct (nth_error l k).
Qed.
Lemma enumerate_at {A} (l : list A) pre p post :
  enumerate l = pre ++ p :: post -> fst p = length pre /\ nth_error l (length pre) = Some (snd p) /\
  nth_error l (length pre) = Some (snd p) /\ map snd pre = firstn (length pre) l.
Proof.
  intros E. pose proof (enumerate_nth l (length pre)) as N. rewrite E, nth_error_app2, Nat.sub_diag in N by lia.
  cbn [nth_error] in N. destruct (nth_error l (length pre)) as [a|] eqn:Ha; [|discriminate].
  cbn in N. injection N as ->. cbn. repeat split; auto.
  rewrite <- (enumerate_snd l) at 1. rewrite E, map_app, firstn_app, map_length, Nat.sub_diag. cbn [firstn].
  rewrite app_nil_r, firstn_all2; [reflexivity|]. now rewrite map_length.
Qed.
