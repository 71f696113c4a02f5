(** Gauss-Jordan elimination over the reals finds dependent rows: proofs for C21. *)
From Coq Require Import List Arith ZArith Lia Bool Reals Lra Permutation.
From Verif Require Import Num NumR Outcome Lib ModelNumerical Spec_Rank Proofs_Analyze Proofs_Real.
Import ListNotations.
Local Open Scope R_scope.

Section Span.
  Variable n : nat.
  Implicit Types (rows : list (list R)) (v : list R).

  Lemma lin_scale a cs rows j : lin (map (Rmult a) cs) rows j = a * lin cs rows j.
  Proof.
    revert rows. induction cs as [|c cs IH]; intros [|r rows]; simpl; try ring. rewrite IH. ring.
  Qed.
  Definition vadd (xs ys : list R) : list R := map (fun '(x, y) => x + y) (combine xs ys).
  Lemma lin_add cs ds rows j : length cs = length rows -> length ds = length rows ->
    lin (vadd cs ds) rows j = lin cs rows j + lin ds rows j.
  Proof.
    revert ds rows. induction cs as [|c cs IH]; intros [|d ds] [|r rows] H1 H2; simpl in *;
      try discriminate; try ring.
    unfold vadd in IH. rewrite IH by lia. ring.
  Qed.
  Lemma vadd_length cs ds k : length cs = k -> length ds = k -> length (vadd cs ds) = k.
  Proof. intros. unfold vadd. rewrite map_length, combine_length. lia. Qed.
  Lemma lin_zero k rows j : lin (repeat 0 k) rows j = 0.
  Proof. revert rows. induction k; intros [|r rows]; simpl; auto. rewrite IHk. ring. Qed.
  Lemma lin_app cs ds A B j : length cs = length A -> lin (cs ++ ds) (A ++ B) j = lin cs A j + lin ds B j.
  Proof.
    revert A. induction cs as [|c cs IH]; intros [|r A] H; simpl in *; try discriminate; [ring|].
    rewrite IH by lia. ring.
  Qed.

  (** Everything up to [n] *)
  Definition same v v' : Prop := forall j, (j < n)%nat -> nth j v 0 = nth j v' 0.

  Lemma dep_comb a b rows x y v : dependent n rows x -> dependent n rows y ->
    (forall j, (j < n)%nat -> nth j v 0 = a * nth j x 0 + b * nth j y 0) -> dependent n rows v.
  Proof.
    intros (cs & L1 & H1) (ds & L2 & H2) H.
    exists (vadd (map (Rmult a) cs) (map (Rmult b) ds)). split.
    - apply vadd_length; rewrite map_length; auto.
    - intros j Hj. rewrite lin_add, !lin_scale by (now rewrite map_length).
      rewrite H, H1, H2 by auto. ring.
  Qed.
  Lemma dep_zero rows v : (forall j, (j < n)%nat -> nth j v 0 = 0) -> dependent n rows v.
  Proof.
    intros H. exists (repeat 0 (length rows)). split; [apply repeat_length|].
    intros j Hj. now rewrite lin_zero, H.
  Qed.
  Lemma dep_in rows v : In v rows -> dependent n rows v.
  Proof.
    intros H. apply in_split in H. destruct H as (A & B & ->).
    exists (repeat 0 (length A) ++ 1 :: repeat 0 (length B)). split.
    - rewrite !app_length. simpl. rewrite !repeat_length. auto.
    - intros j Hj. rewrite lin_app by apply repeat_length. simpl. rewrite !lin_zero. ring.
  Qed.
  Lemma dep_app A B v : dependent n A v -> dependent n (A ++ B) v.
  Proof.
    intros (cs & L & H). exists (cs ++ repeat 0 (length B)). split.
    - rewrite !app_length, repeat_length. lia.
    - intros j Hj. rewrite lin_app by auto. rewrite lin_zero, H by auto. ring.
  Qed.
  Lemma dep_trans A B v : (forall r, In r A -> dependent n B r) -> dependent n A v -> dependent n B v.
  Proof.
    intros H (cs & L & E). revert A v H L E. induction cs as [|c cs IH]; intros [|r A] v H L E; simpl in *; try discriminate.
    - apply dep_zero. auto.
    - set (w := map (fun j => lin cs A j) (seq 0 n)).
      assert (Ew : forall j, (j < n)%nat -> nth j w 0 = lin cs A j).
      { intros j Hj. unfold w. apply (nth_error_nth _ _ 0). rewrite nth_error_map, nth_error_seq.
        destruct (Nat.ltb_spec j n); [simpl; auto|lia]. }
      apply (dep_comb c 1 B r w).
      + auto.
      + apply (IH A); auto. 
      + intros j Hj. rewrite E, Ew by auto. ring.
  Qed.
  Lemma dep_same rows v v' : same v v' -> dependent n rows v -> dependent n rows v'.
  Proof. intros S (cs & L & H). exists cs. split; auto. intros j Hj. rewrite <- S; auto. Qed.

  Lemma row_sub_nth f t x j : length t = n -> length x = n -> (j < n)%nat ->
    nth j (row_sub f t x) 0 = nth j t 0 - f * nth j x 0.
  Proof.
    intros L1 L2 Hj. unfold row_sub.
    assert (E : nth_error (map (fun '(t0, x0) => (t0 - f * x0)%num) (combine t x)) j =
                Some (nth j t 0 - f * nth j x 0)).
    { rewrite nth_error_map, nth_error_combine.
      rewrite (nth_error_nth' t 0), (nth_error_nth' x 0) by lia. reflexivity. }
    apply (nth_error_nth _ _ 0) in E. exact E.
  Qed.
  Lemma scale_nth f x j : length x = n -> (j < n)%nat -> nth j (map (fun y => (y * f)%num) x) 0 = nth j x 0 * f.
  Proof.
    intros L Hj. apply (nth_error_nth _ _ 0). rewrite nth_error_map, (nth_error_nth' x 0) by lia. reflexivity.
  Qed.
End Span.

Lemma dep_row_sub n rows f t x : length t = n -> length x = n ->
  dependent n rows t -> dependent n rows x -> dependent n rows (row_sub f t x).
Proof.
  intros L1 L2 H1 H2. apply (dep_comb n 1 (- f) rows t x); auto.
  intros j Hj. rewrite (row_sub_nth n) by auto. ring.
Qed.

(** ** The state of the elimination *)
Definition flagged (done : list (list R * bool)) : list (list R) := map fst (filter snd done).

Record reduced (n : nat) (pre : list (list R)) (done : list (list R * bool)) (cols : list nat) (cur : nat) : Prop := {
  rd_len : length done = length pre;
  rd_rows : forall r b, In (r, b) done -> length r = n;
  rd_cols : Permutation cols (seq 0 n);
  rd_cur : cur = length (flagged done);
  rd_span : forall r b, In (r, b) done -> dependent n pre r;
  rd_back : forall v, In v pre -> dependent n (map fst done) v;
  rd_pivot : forall i r c, nth_error (flagged done) i = Some r -> nth_error cols i = Some c -> nth c r 0 = 1;
  rd_other : forall i j r c, nth_error (flagged done) i = Some r -> nth_error cols j = Some c ->
    (j < cur)%nat -> i <> j -> nth c r 0 = 0;
  rd_clear : forall r j c, In (r, false) done -> nth_error cols j = Some c -> (j < cur)%nat -> nth c r 0 = 0;
  rd_near : forall i v r, nth_error pre i = Some v -> nth_error done i = Some (r, false) ->
    nearly_dependent EPSILON n (firstn i pre) v;
  (** when what is reported is exactly dependent *)
  rd_exact : (forall i v r, nth_error pre i = Some v -> nth_error done i = Some (r, false) ->
                dependent n (firstn i pre) v) ->
    (forall r j, In (r, false) done -> (j < n)%nat -> nth j r 0 = 0) /\
    (forall i v r, nth_error pre i = Some v -> nth_error done i = Some (r, true) ->
       ~ dependent n (firstn i pre) v)
}.

Lemma flagged_app a b : flagged (a ++ b) = flagged a ++ flagged b.
Proof. unfold flagged. now rewrite filter_app, map_app. Qed.
Lemma flagged_in r done : In r (flagged done) <-> In (r, true) done.
Proof.
  unfold flagged. rewrite in_map_iff. split.
  - intros ([r' b] & E & H). apply filter_In in H. simpl in *. destruct H as [H1 H2]. now subst.
  - intros H. exists (r, true). split; auto. apply filter_In. auto.
Qed.

Lemma eliminate_spec n pre done cols cur row rank row' : reduced n pre done cols cur -> length row = n ->
  eliminate cols done row = Done (rank, row') ->
  length row' = n /\
  (forall j c, nth_error cols j = Some c -> (j < cur)%nat -> nth c row' 0 = 0) /\
  exists w, length w = n /\ dependent n (map fst done) w /\
    forall j, (j < n)%nat -> nth j row 0 = nth j row' 0 + nth j w 0.
Proof.
  intros RD L H. unfold eliminate in H.
  assert (Cn : forall j c, nth_error cols j = Some c -> (c < n)%nat).
  { intros j c Hc. apply nth_error_In in Hc. apply (Permutation_in _ (rd_cols _ _ _ _ _ RD)) in Hc.
    apply in_seq in Hc. lia. }
  assert (Lc : length cols = n) by (rewrite (Permutation_length (rd_cols _ _ _ _ _ RD)); apply seq_length).
  apply (ofold_inv_prefix (fun d (st : nat * list R) =>
    let '(rank, row') := st in
    rank = length (flagged d) /\ length row' = n /\
    (forall j c, nth_error cols j = Some c -> (j < rank)%nat -> nth c row' 0 = 0) /\
    exists w, length w = n /\ dependent n (map fst done) w /\
      forall j, (j < n)%nat -> nth j row 0 = nth j row' 0 + nth j w 0)) in H.
  - destruct H as (E & L' & Z & W). split; [auto|]. split; [|auto].
    intros j c Hc Hj. rewrite (rd_cur _ _ _ _ _ RD) in Hj. rewrite E in Z. eauto.
  - intros d [r b] post [rk x] [rk' x'] Ed (E & Lx & Z & w & Lw & Dw & Ew) S.
    cbn beta iota in S.
    apply obind_done in S. destruct S as (c & Hc & S). apply oget_done in Hc.
    apply obind_done in S. destruct S as (f & Hf & S). apply oget_done in Hf.
    inversion S; subst rk' x'; clear S.
    assert (Hin : In (r, b) done) by (rewrite Ed; apply in_app_iff; simpl; auto).
    assert (Lr := rd_rows _ _ _ _ _ RD _ _ Hin).
    assert (Hf' : nth c x 0 = f) by (now apply nth_error_nth).
    assert (Lfl : (length (flagged (d ++ [(r, b)])) <= cur)%nat).
    { rewrite (rd_cur _ _ _ _ _ RD), Ed, !flagged_app, !app_length. unfold flagged. simpl. destruct b; simpl; lia. }
    split.
    { rewrite flagged_app, app_length. unfold flagged at 2. simpl. destruct b; simpl; lia. }
    split; [apply row_sub_length; auto|]. split.
    + intros j c' Hc' Hj. rewrite (row_sub_nth n) by eauto.
      destruct b.
      * (* a pivot row *)
        assert (Nr : nth_error (flagged done) rk = Some r).
        { rewrite Ed, flagged_app. rewrite nth_error_app2 by lia. rewrite E, Nat.sub_diag. reflexivity. }
        rewrite flagged_app, app_length in Lfl. change (length (flagged [(r, true)])) with 1%nat in Lfl.
        destruct (Nat.eq_dec j rk) as [->|Nj].
        -- rewrite Hc in Hc'. inversion Hc'; subst c'. rewrite (rd_pivot _ _ _ _ _ RD _ _ _ Nr Hc), Hf'. ring.
        -- rewrite (rd_other _ _ _ _ _ RD rk j r c' Nr Hc') by lia. rewrite (Z j c' Hc') by lia. ring.
      * rewrite (rd_clear _ _ _ _ _ RD r j c' Hin Hc').
        -- rewrite (Z j c' Hc') by lia. ring.
        -- rewrite flagged_app, app_length in Lfl. lia.
    + exists (map (fun j => nth j w 0 + f * nth j r 0) (seq 0 n)).
      assert (Q : forall j, (j < n)%nat -> nth j (map (fun j => nth j w 0 + f * nth j r 0) (seq 0 n)) 0 = nth j w 0 + f * nth j r 0).
      { intros j Hj. apply (nth_error_nth _ _ 0). rewrite nth_error_map, nth_error_seq.
        destruct (Nat.ltb_spec j n); [reflexivity|lia]. }
      split; [rewrite map_length; apply seq_length|]. split.
      * apply (dep_comb n 1 f _ w r); auto.
        -- apply dep_in. apply in_map_iff. exists (r, b). auto.
        -- intros j Hj. rewrite Q by auto. ring.
      * intros j Hj. rewrite (row_sub_nth n), Q, Ew by auto. ring.
  - split; [reflexivity|]. split; [auto|]. split; [intros; lia|].
    exists (repeat 0 n). split; [apply repeat_length|]. 
    assert (Q : forall j, nth j (repeat 0 n) 0 = 0).
    { intros j. destruct (le_lt_dec n j).
      - apply nth_overflow. now rewrite repeat_length.
      - apply nth_repeat. }
    split; [apply dep_zero; auto|]. intros j Hj. rewrite Q. ring.
Qed.

Lemma find_pivot_spec row cols ps o : find_pivot row cols ps = Done o ->
  match o with
  | None => forall p c, In p ps -> nth_error cols p = Some c -> Rabs (nth c row 0) <= EPSILON
  | Some p => In p ps /\ exists c, nth_error cols p = Some c /\ EPSILON < Rabs (nth c row 0)
  end.
Proof.
  induction ps as [|p ps IH]; cbn [find_pivot]; intros H.
  - inversion H; subst. intros p c [].
  - apply obind_done in H. destruct H as (c & Hc & H). apply oget_done in Hc.
    apply obind_done in H. destruct H as (x & Hx & H). apply oget_done in Hx.
    apply (nth_error_nth _ _ 0) in Hx.
    change (EPSILON <? nabs x)%num with (Rltb EPSILON (Rabs x)) in H.
    destruct (Rltb_spec EPSILON (Rabs x)) as [Hlt|Hge].
    + inversion H; subst o. cbn beta iota. split; [now left|]. exists c. rewrite Hx. auto.
    + apply IH in H. destruct o as [p0|].
      * destruct H as [H1 H2]. split; [now right|auto].
      * intros p' c' [<-|Hq] Hc'; [|eauto]. rewrite Hc in Hc'. inversion Hc'; subst c'. rewrite Hx. lra.
Qed.

Lemma eps_pos : 0 < EPSILON.
Proof. unfold EPSILON, tenm. change (0 < IZR 1 / IZR (10 ^ 8)). apply Rdiv_lt_0_compat; apply IZR_lt; reflexivity. Qed.

Lemma oswap_spec {A} (l l' : list A) i j : oswap l i j = Done l' ->
  exists a b, nth_error l i = Some a /\ nth_error l j = Some b /\
    length l' = length l /\
    forall k, nth_error l' k = if Nat.eqb k j then Some a else if Nat.eqb k i then Some b else nth_error l k.
Proof.
  unfold oswap. intros H.
  apply obind_done in H. destruct H as (a & Ha & H). apply oget_done in Ha.
  apply obind_done in H. destruct H as (b & Hb & H). apply oget_done in Hb.
  apply obind_done in H. destruct H as (l1 & H1 & H). apply oset_done in H1. destruct H1 as [_ ->].
  apply oset_done in H. destruct H as [_ ->].
  assert (Li := nth_error_lt _ _ _ Ha). assert (Lj := nth_error_lt _ _ _ Hb).
  exists a, b. split; [auto|]. split; [auto|]. split; [now rewrite !lset_length|].
  intros k. rewrite !nth_error_lset, lset_length.
  rewrite (Nat.eqb_sym k j), (Nat.eqb_sym k i).
  destruct (Nat.eqb_spec j k) as [->|Nk].
  - destruct (Nat.ltb_spec k (length l)); [auto|lia].
  - destruct (Nat.eqb_spec i k) as [->|]; [|auto]. destruct (Nat.ltb_spec k (length l)); [auto|lia].
Qed.
Lemma swap_perm {A} (l l' : list A) i j a b : nth_error l i = Some a -> nth_error l j = Some b ->
  length l' = length l ->
  (forall k, nth_error l' k = if Nat.eqb k j then Some a else if Nat.eqb k i then Some b else nth_error l k) ->
  Permutation l' l.
Proof.
  intros Ha Hb L H. apply Permutation_sym, Permutation_nth_error. split; [auto|].
  exists (fun k => if Nat.eqb k j then i else if Nat.eqb k i then j else k). split.
  - intros x y. 
    destruct (Nat.eqb_spec x j), (Nat.eqb_spec x i), (Nat.eqb_spec y j), (Nat.eqb_spec y i); lia.
  - intros k. rewrite H. destruct (Nat.eqb_spec k j); [auto|]. destruct (Nat.eqb_spec k i); auto.
Qed.

Lemma lin_pick cs rows j k r : length cs = length rows -> nth_error rows k = Some r -> nth j r 0 = 1 ->
  (forall i r', nth_error rows i = Some r' -> i <> k -> nth j r' 0 = 0) -> lin cs rows j = nth k cs 0.
Proof.
  revert rows k. induction cs as [|c cs IH]; intros [|x rows] k L H E O; simpl in L; try discriminate.
  - destruct k; discriminate.
  - destruct k as [|k]; cbn [lin nth nth_error] in *.
    + inversion H; subst x. rewrite E.
      assert (Z : lin cs rows j = 0).
      { assert (O' : forall i r', nth_error rows i = Some r' -> nth j r' 0 = 0).
        { intros i r' Hi. apply (O (S i)); auto. }
        clear -O'. revert rows O'. induction cs as [|c cs IH]; intros [|x rows] O'; simpl; auto.
        rewrite IH. - rewrite (O' 0%nat x) by reflexivity. ring. - intros i r' Hi. now apply (O' (S i)). }
      rewrite Z. ring.
    + rewrite (O 0%nat x) by (auto; lia). rewrite (IH rows k); auto; [ring|].
      intros i r' Hi Ni. apply (O (S i)); auto.
Qed.
Lemma lin_all_zero cs rows j : (forall k, (k < length cs)%nat -> nth k cs 0 = 0) -> lin cs rows j = 0.
Proof.
  revert rows. induction cs as [|c cs IH]; intros [|r rows] H; simpl; auto.
  assert (H0 := H 0%nat). cbn [nth length] in H0. rewrite H0 by lia. rewrite IH; [ring|].
  intros k Hk. apply (H (S k)). simpl. lia.
Qed.

(** A combination of the reduced rows that vanishes at every pivot is zero. *)
Lemma clear_zero n pre done cols cur v : reduced n pre done cols cur -> (cur <= n)%nat ->
  (forall r j, In (r, false) done -> (j < n)%nat -> nth j r 0 = 0) ->
  (forall j c, nth_error cols j = Some c -> (j < cur)%nat -> nth c v 0 = 0) ->
  dependent n (map fst done) v -> forall j, (j < n)%nat -> nth j v 0 = 0.
Proof.
  intros RD Cn U Z D.
  assert (Lc : length cols = n) by (rewrite (Permutation_length (rd_cols _ _ _ _ _ RD)); apply seq_length).
  assert (D' : dependent n (flagged done) v).
  { apply (dep_trans n (map fst done)); auto. intros r Hr. apply in_map_iff in Hr.
    destruct Hr as ([r' b] & E & Hr). simpl in E. subst r'. destruct b.
    - apply dep_in. now apply flagged_in.
    - apply dep_zero. eauto. }
  destruct D' as (cs & L & E). intros j Hj. rewrite E by auto. apply lin_all_zero.
  intros k Hk. rewrite L in Hk. rewrite <- (rd_cur _ _ _ _ _ RD) in Hk.
  destruct (nth_error (flagged done) k) as [r|] eqn:Hr.
  2:{ apply nth_error_None in Hr. rewrite <- (rd_cur _ _ _ _ _ RD) in Hr. lia. }
  destruct (nth_error cols k) as [c|] eqn:Hc.
  2:{ apply nth_error_None in Hc. lia. }
  assert (c < n)%nat.
  { apply nth_error_In in Hc. apply (Permutation_in _ (rd_cols _ _ _ _ _ RD)) in Hc. apply in_seq in Hc. lia. }
  rewrite <- (lin_pick cs (flagged done) c k r); auto.
  - rewrite <- E by auto. eauto.
  - exact (rd_pivot _ _ _ _ _ RD _ _ _ Hr Hc).
  - intros i r' Hi Ni. exact (rd_other _ _ _ _ _ RD i k r' c Hi Hc Hk Ni).
Qed.

Lemma filter_map_snd (f : list R -> list R) done :
  flagged (map (fun '(r, b) => (f r, b)) done) = map f (flagged done).
Proof. unfold flagged. induction done as [|[r b] done IH]; simpl; auto. destruct b; simpl; congruence. Qed.

Lemma gj_row_spec n pre done cols cur row st : reduced n pre done cols cur -> length row = n ->
  gj_row n (done, cols, cur) row = Done st ->
  let '(done', cols', cur') := st in reduced n (pre ++ [row]) done' cols' cur'.
Proof.
  intros RD L H. unfold gj_row in H. cbn beta iota in H.
  apply obind_done in H. destruct H as ([rk row'] & He & H).
  destruct (eliminate_spec _ _ _ _ _ _ _ _ RD L He) as (L' & Z & w & Lw & Dw & Ew).
  apply obind_done in H. destruct H as (o & Hp & H). apply find_pivot_spec in Hp.
  assert (Lc : length cols = n) by (rewrite (Permutation_length (rd_cols _ _ _ _ _ RD)); apply seq_length).
  assert (Cn : forall j c, nth_error cols j = Some c -> (c < n)%nat).
  { intros j c Hc. apply nth_error_In in Hc. apply (Permutation_in _ (rd_cols _ _ _ _ _ RD)) in Hc.
    apply in_seq in Hc. lia. }
  assert (Pd : forall r, In r (map fst done) -> dependent n pre r).
  { intros r Hr. apply in_map_iff in Hr. destruct Hr as ([r' b] & E & Hr). simpl in E. subst r'.
    exact (rd_span _ _ _ _ _ RD _ _ Hr). }
  assert (Wp : dependent n pre w) by (apply (dep_trans n (map fst done)); auto).
  assert (R'p : dependent n (pre ++ [row]) row').
  { apply (dep_comb n 1 (-1) _ row w).
    - apply dep_in. apply in_app_iff. simpl. auto.
    - now apply dep_app.
    - intros j Hj. rewrite Ew by auto. ring. }
  assert (Dlen := rd_len _ _ _ _ _ RD).
  assert (Pn : forall A i, (i <= length pre)%nat -> firstn i (pre ++ A) = firstn i pre).
  { intros A i Hi. rewrite firstn_app. replace (i - length pre)%nat with 0%nat by lia.
    simpl. apply app_nil_r. }
  destruct o as [p|].
  - (* a new pivot *)
    destruct Hp as (Hp & c & Hc & Big). apply in_seq in Hp.
    apply obind_done in H. destruct H as (cols' & Hs & H).
    apply oswap_spec in Hs. destruct Hs as (a & b & Ha & Hb & Lc' & Sw).
    rewrite Hc in Hb. inversion Hb; subst b; clear Hb.
    apply obind_done in H. destruct H as (c0 & Hc0 & H). apply oget_done in Hc0.
    assert (c0 = c).
    { rewrite Sw, Nat.eqb_refl in Hc0. destruct (Nat.eqb_spec cur p) as [E|]; [|congruence].
      subst p. congruence. }
    subst c0. clear Hc0.
    apply obind_done in H. destruct H as (f & Hf & H). apply oget_done in Hf.
    apply (nth_error_nth _ _ 0) in Hf.
    apply obind_done in H. destruct H as (done' & Hd & H). inversion H; subst st; clear H.
    assert (Nf : f <> 0).
    { intros E. rewrite Hf, E, Rabs_R0 in Big. pose proof eps_pos. lra. }
    set (row2 := map (fun x => (x * (nunit / f))%num) row') in *.
    change (reduced n (pre ++ [row]) (done' ++ [(row2, true)]) cols' (S cur)).
    assert (L2 : length row2 = n) by (unfold row2; now rewrite map_length).
    assert (E2 : forall j, (j < n)%nat -> nth j row2 0 = nth j row' 0 * (1 / f)).
    { intros j Hj. unfold row2. exact (scale_nth n (1 / f) row' j L' Hj). }
    assert (Hd' : done' = map (fun '(r, b) => (row_sub (nth c r 0) r row2, b)) done).
    { clear -Hd. revert done' Hd. induction done as [|[r b] done IH]; intros done' Hd; simpl in Hd.
      - inversion Hd. reflexivity.
      - apply obind_done in Hd. destruct Hd as (y & Hy & Hd).
        apply obind_done in Hy. destruct Hy as (g & Hg & Hy). apply oget_done in Hg.
        apply (nth_error_nth _ _ 0) in Hg. inversion Hy; subst y; clear Hy.
        apply obind_done in Hd. destruct Hd as (ys & Hys & Hd). inversion Hd; subst done'.
        simpl. rewrite Hg. f_equal. now apply IH. }
    assert (Cc := Cn _ _ Hc).
    assert (Sw' : forall j, (j < cur)%nat -> nth_error cols' j = nth_error cols j).
    { intros j Hj. rewrite Sw. destruct (Nat.eqb_spec j p); [lia|]. destruct (Nat.eqb_spec j cur); [lia|auto]. }
    assert (Swc : nth_error cols' cur = Some c).
    { rewrite Sw, Nat.eqb_refl. destruct (Nat.eqb_spec cur p); [subst p; congruence|auto]. }
    assert (Z2 : forall j c, nth_error cols j = Some c -> (j < cur)%nat -> nth c row2 0 = 0).
    { intros j c' Hc' Hj. rewrite E2 by eauto. rewrite (Z j c' Hc' Hj). ring. }
    assert (One : nth c row2 0 = 1).
    { rewrite E2, Hf by auto. field. auto. }
    assert (Fl : flagged (done' ++ [(row2, true)]) = map (fun r => row_sub (nth c r 0) r row2) (flagged done) ++ [row2]).
    { rewrite flagged_app, Hd'. f_equal. exact (filter_map_snd (fun r => row_sub (nth c r 0) r row2) done). }
    assert (Lf := rd_cur _ _ _ _ _ RD).
    assert (InD : forall r b, In (r, b) done' -> exists r0, In (r0, b) done /\ length r0 = n /\ r = row_sub (nth c r0 0) r0 row2).
    { intros r b Hr. rewrite Hd' in Hr. apply in_map_iff in Hr. destruct Hr as ([r0 b0] & E & Hr). inversion E; subst.
      exists r0. split; [auto|]. split; [exact (rd_rows _ _ _ _ _ RD _ _ Hr)|auto]. }
    assert (Row2p : dependent n (pre ++ [row]) row2).
    { apply (dep_comb n (1 / f) 0 _ row' row'); auto. intros j Hj. rewrite E2 by auto. ring. }
    assert (NthD : forall i r b, nth_error done' i = Some (r, b) -> exists r0, nth_error done i = Some (r0, b) /\ length r0 = n /\ r = row_sub (nth c r0 0) r0 row2).
    { intros i r b Hi. rewrite Hd', nth_error_map in Hi. destruct (nth_error done i) as [[r0 b0]|] eqn:E; [|discriminate].
      inversion Hi; subst. exists r0. split; [auto|]. split; [|auto].
      apply nth_error_In in E. exact (rd_rows _ _ _ _ _ RD _ _ E). }
    assert (Ld' : length done' = length pre) by (rewrite Hd', map_length; auto).
    constructor.
    + rewrite !app_length, Ld'. reflexivity.
    + intros r b Hr. apply in_app_iff in Hr. destruct Hr as [Hr|[Hr|[]]].
      * destruct (InD _ _ Hr) as (r0 & _ & Lr & ->). apply row_sub_length; auto.
      * inversion Hr; subst. auto.
    + rewrite <- (rd_cols _ _ _ _ _ RD). exact (swap_perm cols cols' cur p a c Ha Hc Lc' Sw).
    + rewrite Fl, app_length, map_length. simpl. rewrite Lf. lia.
    + intros r b Hr. apply in_app_iff in Hr. destruct Hr as [Hr|[Hr|[]]].
      * destruct (InD _ _ Hr) as (r0 & H0 & Lr & ->). apply dep_row_sub; auto.
        apply dep_app. exact (rd_span _ _ _ _ _ RD _ _ H0).
      * inversion Hr; subst. auto.
    + (* back *)
      assert (Back : forall v, dependent n (map fst done) v -> dependent n (map fst (done' ++ [(row2, true)])) v).
      { intros v. apply dep_trans. intros r Hr. apply in_map_iff in Hr. destruct Hr as ([r' b'] & E & Hr). simpl in E. subst r'.
        apply (dep_comb n 1 (nth c r 0) _ (row_sub (nth c r 0) r row2) row2).
        - apply dep_in. rewrite map_app. apply in_app_iff. left. rewrite Hd', map_map. apply in_map_iff.
          exists (r, b'). auto.
        - apply dep_in. rewrite map_app. apply in_app_iff. right. simpl. auto.
        - intros j Hj. rewrite (row_sub_nth n) by (auto; exact (rd_rows _ _ _ _ _ RD _ _ Hr)). ring. }
      intros v Hv. apply in_app_iff in Hv. destruct Hv as [Hv|[<-|[]]].
      * apply Back. exact (rd_back _ _ _ _ _ RD _ Hv).
      * apply (dep_comb n f 1 _ row2 w).
        -- apply dep_in. rewrite map_app. apply in_app_iff. right. simpl. auto.
        -- now apply Back.
        -- intros j Hj. rewrite Ew, E2 by auto. field. auto.
    + (* pivots *)
      intros i r c' Hi Hc'. rewrite Fl in Hi.
      assert (Li := nth_error_lt _ _ _ Hi). rewrite app_length, map_length in Li. simpl in Li.
      destruct (Nat.eq_dec i cur) as [->|Ni].
      * rewrite nth_error_app2 in Hi by (rewrite map_length; lia). rewrite map_length, <- Lf, Nat.sub_diag in Hi.
        simpl in Hi. inversion Hi; subst r. rewrite Swc in Hc'. inversion Hc'; subst c'. auto.
      * rewrite nth_error_app1 in Hi by (rewrite map_length; lia). rewrite nth_error_map in Hi.
        destruct (nth_error (flagged done) i) as [r0|] eqn:E; [|discriminate]. simpl in Hi. inversion Hi; subst r.
        rewrite Sw' in Hc' by lia.
        assert (Lr : length r0 = n).
        { assert (Hr := nth_error_In _ _ E). apply flagged_in in Hr. exact (rd_rows _ _ _ _ _ RD _ _ Hr). }
        rewrite (row_sub_nth n) by eauto. rewrite (rd_pivot _ _ _ _ _ RD _ _ _ E Hc'), (Z2 i c' Hc') by lia. ring.
    + intros i j r c' Hi Hc' Hj Nij. rewrite Fl in Hi.
      assert (Li := nth_error_lt _ _ _ Hi). rewrite app_length, map_length in Li. simpl in Li.
      destruct (Nat.eq_dec i cur) as [->|Ni].
      * rewrite nth_error_app2 in Hi by (rewrite map_length; lia). rewrite map_length, <- Lf, Nat.sub_diag in Hi.
        simpl in Hi. inversion Hi; subst r. rewrite Sw' in Hc' by lia. apply (Z2 j c' Hc'). lia.
      * rewrite nth_error_app1 in Hi by (rewrite map_length; lia). rewrite nth_error_map in Hi.
        destruct (nth_error (flagged done) i) as [r0|] eqn:E; [|discriminate]. simpl in Hi. inversion Hi; subst r.
        assert (Lr : length r0 = n).
        { assert (Hr := nth_error_In _ _ E). apply flagged_in in Hr. exact (rd_rows _ _ _ _ _ RD _ _ Hr). }
        destruct (Nat.eq_dec j cur) as [->|Nj].
        -- rewrite Swc in Hc'. inversion Hc'; subst c'. rewrite (row_sub_nth n) by auto. rewrite One. ring.
        -- rewrite Sw' in Hc' by lia. rewrite (row_sub_nth n) by eauto.
           rewrite (rd_other _ _ _ _ _ RD i j r0 c' E Hc'), (Z2 j c' Hc') by lia. ring.
    + intros r j c' Hr Hc' Hj. apply in_app_iff in Hr. destruct Hr as [Hr|[Hr|[]]]; [|discriminate].
      destruct (InD _ _ Hr) as (r0 & H0 & Lr & ->).
      destruct (Nat.eq_dec j cur) as [->|Nj].
      * rewrite Swc in Hc'. inversion Hc'; subst c'. rewrite (row_sub_nth n) by auto. rewrite One. ring.
      * rewrite Sw' in Hc' by lia. rewrite (row_sub_nth n) by eauto.
        rewrite (rd_clear _ _ _ _ _ RD r0 j c' H0 Hc'), (Z2 j c' Hc') by lia. ring.
    + intros i v r Hv Hr. assert (Li := nth_error_lt _ _ _ Hr). rewrite app_length, Ld' in Li. simpl in Li.
      destruct (Nat.eq_dec i (length pre)) as [->|Ni].
      { rewrite nth_error_app2 in Hr by lia. rewrite Ld', Nat.sub_diag in Hr. discriminate. }
      rewrite nth_error_app1 in Hr by lia. rewrite nth_error_app1 in Hv by lia.
      destruct (NthD _ _ _ Hr) as (r0 & Hr0 & _). rewrite Pn by lia.
      exact (rd_near _ _ _ _ _ RD i v r0 Hv Hr0).
    + intros Hex.
      assert (Hex' : forall i v r, nth_error pre i = Some v -> nth_error done i = Some (r, false) -> dependent n (firstn i pre) v).
      { intros i v r Hv Hr. assert (Li := nth_error_lt _ _ _ Hv). rewrite <- (Pn [row]) by lia.
        apply (Hex i v (row_sub (nth c r 0) r row2)).
        - now rewrite nth_error_app1.
        - rewrite nth_error_app1 by lia. rewrite Hd', nth_error_map, Hr. reflexivity. }
      destruct (rd_exact _ _ _ _ _ RD Hex') as [U I]. split.
      * intros r j Hr Hj. apply in_app_iff in Hr. destruct Hr as [Hr|[Hr|[]]]; [|discriminate].
        destruct (InD _ _ Hr) as (r0 & H0 & Lr & ->). rewrite (row_sub_nth n) by auto.
        rewrite (U r0 j H0 Hj), (U r0 c H0 Cc). ring.
      * intros i v r Hv Hr. assert (Li := nth_error_lt _ _ _ Hr). rewrite app_length, Ld' in Li. simpl in Li.
        destruct (Nat.eq_dec i (length pre)) as [->|Ni].
        -- rewrite nth_error_app2, Nat.sub_diag in Hv by lia. simpl in Hv. inversion Hv; subst v.
           rewrite Pn, firstn_all by lia. intros D.
           assert (D' : dependent n pre row').
           { apply (dep_comb n 1 (-1) _ row w); auto. intros j Hj. rewrite Ew by auto. ring. }
           assert (D2 : dependent n (map fst done) row').
           { apply (dep_trans n pre); auto. exact (rd_back _ _ _ _ _ RD). }
           apply Nf. rewrite <- Hf. apply (clear_zero n pre done cols cur row'); auto. lia.
        -- rewrite nth_error_app1 in Hr by lia. rewrite nth_error_app1 in Hv by lia.
           destruct (NthD _ _ _ Hr) as (r0 & Hr0 & _). rewrite Pn by lia. exact (I i v r0 Hv Hr0).
  - (* no pivot *)
    inversion H; subst st; clear H.
    assert (Fl : flagged (done ++ [(row', false)]) = flagged done).
    { rewrite flagged_app. unfold flagged at 2. simpl. apply app_nil_r. }
    assert (Lf := rd_cur _ _ _ _ _ RD).
    assert (Small : forall j, (j < n)%nat -> Rabs (nth j row' 0) <= EPSILON).
    { intros j Hj.
      assert (In j cols).
      { apply (Permutation_in j (Permutation_sym (rd_cols _ _ _ _ _ RD))). apply in_seq. lia. }
      apply In_nth_error in H. destruct H as [q Hq]. assert (Lq := nth_error_lt _ _ _ Hq).
      destruct (le_lt_dec cur q).
      - apply (Hp q j); auto. apply in_seq. lia.
      - rewrite (Z q j Hq l), Rabs_R0. pose proof eps_pos. lra. }
    constructor.
    + rewrite !app_length. simpl. lia.
    + intros r b Hr. apply in_app_iff in Hr. destruct Hr as [Hr|[Hr|[]]].
      * exact (rd_rows _ _ _ _ _ RD _ _ Hr).
      * inversion Hr; subst. auto.
    + exact (rd_cols _ _ _ _ _ RD).
    + rewrite Fl. auto.
    + intros r b Hr. apply in_app_iff in Hr. destruct Hr as [Hr|[Hr|[]]].
      * apply dep_app. exact (rd_span _ _ _ _ _ RD _ _ Hr).
      * inversion Hr; subst. auto.
    + intros v Hv. rewrite map_app. apply in_app_iff in Hv. destruct Hv as [Hv|[<-|[]]].
      * apply dep_app. exact (rd_back _ _ _ _ _ RD _ Hv).
      * apply (dep_comb n 1 1 _ row' w).
        -- apply dep_in. apply in_app_iff. right. simpl. auto.
        -- now apply dep_app.
        -- intros j Hj. rewrite Ew by auto. ring.
    + rewrite Fl. exact (rd_pivot _ _ _ _ _ RD).
    + rewrite Fl. exact (rd_other _ _ _ _ _ RD).
    + intros r j c' Hr Hc' Hj. apply in_app_iff in Hr. destruct Hr as [Hr|[Hr|[]]].
      * exact (rd_clear _ _ _ _ _ RD r j c' Hr Hc' Hj).
      * inversion Hr; subst. eauto.
    + intros i v r Hv Hr. assert (Li := nth_error_lt _ _ _ Hr). rewrite app_length in Li. simpl in Li.
      destruct (Nat.eq_dec i (length pre)) as [->|Ni].
      * rewrite nth_error_app2, Nat.sub_diag in Hv by lia. simpl in Hv. inversion Hv; subst v.
        rewrite Pn, firstn_all by lia. destruct Wp as (cs & Lcs & Ecs). exists cs. split; [auto|].
        intros j Hj. rewrite <- Ecs, Ew by auto. replace (nth j row' 0 + nth j w 0 - nth j w 0) with (nth j row' 0) by ring. auto.
      * rewrite nth_error_app1 in Hr by lia. rewrite nth_error_app1 in Hv by lia. rewrite Pn by lia.
        exact (rd_near _ _ _ _ _ RD i v r Hv Hr).
    + intros Hex.
      assert (Hex' : forall i v r, nth_error pre i = Some v -> nth_error done i = Some (r, false) -> dependent n (firstn i pre) v).
      { intros i v r Hv Hr. assert (Li := nth_error_lt _ _ _ Hv). rewrite <- (Pn [row]) by lia.
        apply (Hex i v r).
        - now rewrite nth_error_app1.
        - rewrite nth_error_app1 by lia. auto. }
      destruct (rd_exact _ _ _ _ _ RD Hex') as [U I].
      assert (Cle : (cur <= n)%nat \/ (n < cur)%nat) by lia.
      split.
      * intros r j Hr Hj. apply in_app_iff in Hr. destruct Hr as [Hr|[Hr|[]]]; [eauto|].
        inversion Hr; subst r.
        assert (D : dependent n pre row).
        { assert (Q := Hex (length pre) row row'). rewrite Pn, firstn_all in Q by lia. apply Q.
          - rewrite nth_error_app2, Nat.sub_diag by lia. reflexivity.
          - rewrite nth_error_app2, Dlen, Nat.sub_diag by lia. reflexivity. }
        assert (D' : dependent n pre row').
        { apply (dep_comb n 1 (-1) _ row w); auto. intros k Hk. rewrite Ew by auto. ring. }
        assert (D2 : dependent n (map fst done) row').
        { apply (dep_trans n pre); auto. exact (rd_back _ _ _ _ _ RD). }
        destruct Cle as [Cle|Cle].
        -- apply (clear_zero n pre done cols cur row'); auto.
        -- assert (In j cols).
           { apply (Permutation_in j (Permutation_sym (rd_cols _ _ _ _ _ RD))). apply in_seq. lia. }
           apply In_nth_error in H. destruct H as [q Hq]. assert (Lq := nth_error_lt _ _ _ Hq).
           apply (Z q j Hq). lia.
      * intros i v r Hv Hr. assert (Li := nth_error_lt _ _ _ Hr). rewrite app_length in Li. simpl in Li.
        destruct (Nat.eq_dec i (length pre)) as [->|Ni].
        -- rewrite nth_error_app2, Dlen, Nat.sub_diag in Hr by lia. discriminate.
        -- rewrite nth_error_app1 in Hr by lia. rewrite nth_error_app1 in Hv by lia. rewrite Pn by lia.
           exact (I i v r Hv Hr).
Qed.

Lemma independent_nil n : independent n [].
Proof. intros cs L _ c Hc. destruct cs; [destruct Hc|discriminate]. Qed.
Lemma independent_snoc n rows v : independent n rows -> ~ dependent n rows v -> independent n (rows ++ [v]).
Proof.
  intros I D cs L Z c Hc.
  destruct (@exists_last _ cs) as (ds & d & ->).
  { intros ->. rewrite app_length in L. simpl in L. lia. }
  rewrite !app_length in L. simpl in L. assert (L' : length ds = length rows) by lia.
  assert (Z' : forall j, (j < n)%nat -> lin ds rows j + d * nth j v 0 = 0).
  { intros j Hj. specialize (Z j Hj). rewrite lin_app in Z by auto. simpl in Z. lra. }
  destruct (Req_dec d 0) as [E|E].
  - apply in_app_iff in Hc. destruct Hc as [Hc|[<-|[]]]; [|auto].
    apply (I ds L'); [|auto]. intros j Hj. specialize (Z' j Hj). rewrite E in Z'. lra.
  - exfalso. apply D. exists (map (Rmult (- / d)) ds). split; [now rewrite map_length|].
    intros j Hj. rewrite lin_scale. specialize (Z' j Hj).
    assert (lin ds rows j = - (d * nth j v 0)) by lra. rewrite H. field. auto.
Qed.

Lemma select_app f g A B : length f = length A -> select (f ++ g) (A ++ B) = select f A ++ select g B.
Proof.
  revert A. induction f as [|b f IH]; intros [|r A] L; simpl in *; try discriminate; auto.
  rewrite IH by lia. destruct b; auto.
Qed.
Lemma select_false k A : select (repeat false k) A = [].
Proof. revert A. induction k; intros [|r A]; simpl; auto. Qed.
Lemma select_in f A r : In r (select f A) -> In r A.
Proof.
  revert A. induction f as [|b f IH]; intros [|x A]; simpl; try tauto.
  destruct b; simpl; intros H; [destruct H; auto|auto].
Qed.
Lemma select_independent n flags A : length flags = length A ->
  (forall i v, nth_error A i = Some v -> nth_error flags i = Some true -> ~ dependent n (firstn i A) v) ->
  independent n (select flags A).
Proof.
  revert A. induction flags as [|b flags IH] using rev_ind; intros A L H.
  - apply independent_nil.
  - rewrite app_length in L. simpl in L.
    destruct (@exists_last _ A) as (B & v & ->). { intros ->. simpl in L. lia. }
    rewrite app_length in L. simpl in L. assert (L' : length flags = length B) by lia.
    rewrite select_app by auto.
    assert (IB : independent n (select flags B)).
    { apply IH; auto. intros i w Hw Hi. assert (Li := nth_error_lt _ _ _ Hw).
      intros D. apply (H i w).
      - now rewrite nth_error_app1.
      - rewrite nth_error_app1 by lia. auto.
      - rewrite firstn_app. now apply dep_app. }
    destruct b; simpl; [|now rewrite app_nil_r].
    apply independent_snoc; auto. intros D. apply (H (length B) v).
    + rewrite nth_error_app2, Nat.sub_diag by lia. reflexivity.
    + rewrite nth_error_app2, L', Nat.sub_diag by lia. reflexivity.
    + rewrite firstn_app, firstn_all. apply dep_app. apply (dep_trans n (select flags B)); auto.
      intros r Hr. apply dep_in. now apply select_in in Hr.
Qed.

Theorem gauss_jordan_flags n (matrix : list (list R)) flags m cols :
  (forall r, In r matrix -> length r = n) ->
  incremental_gauss_jordan_elimination matrix n (seq 0 n) = Done (flags, m, cols) ->
  length flags = length matrix /\
  (forall i row, nth_error matrix i = Some row -> nth_error flags i = Some false -> (i < n)%nat ->
     nearly_dependent EPSILON n (firstn i matrix) row) /\
  (forall i, (n <= i < length matrix)%nat -> nth_error flags i = Some false) /\
  ((forall i row, nth_error matrix i = Some row -> nth_error flags i = Some false -> (i < n)%nat ->
      dependent n (firstn i matrix) row) ->
   (forall i row, nth_error matrix i = Some row -> nth_error flags i = Some true ->
      ~ dependent n (firstn i matrix) row) /\
   independent n (select flags matrix)).
Proof.
  intros Hm H. unfold incremental_gauss_jordan_elimination in H.
  set (k := Nat.min (length matrix) n) in *.
  apply obind_done in H. destruct H as ([[done cols'] cur] & Hf & H). inversion H; subst; clear H.
  apply (ofold_inv_prefix (fun pre (st : list (list R * bool) * list nat * nat) =>
    let '(done, cols, cur) := st in reduced n pre done cols cur)) in Hf.
  - assert (Lk : length (firstn k matrix) = k) by (rewrite firstn_length; lia).
    assert (Ld : length done = k) by (rewrite (rd_len _ _ _ _ _ Hf); auto).
    assert (Lfl : length (map snd done ++ repeat false (length matrix - k)) = length matrix).
    { rewrite app_length, map_length, repeat_length. lia. }
    assert (N1 : forall i b, (i < k)%nat -> nth_error (map snd done ++ repeat false (length matrix - k)) i = Some b ->
      exists r, nth_error done i = Some (r, b)).
    { intros i b Hi E. rewrite nth_error_app1 in E by (rewrite map_length; lia).
      rewrite nth_error_map in E. destruct (nth_error done i) as [[r b']|]; [|discriminate].
      simpl in E. inversion E; subst. eauto. }
    assert (N1' : forall i r b, nth_error done i = Some (r, b) -> nth_error (map snd done ++ repeat false (length matrix - k)) i = Some b).
    { intros i r b E. rewrite nth_error_app1 by (rewrite map_length; apply (nth_error_lt _ _ _ E)).
      rewrite nth_error_map, E. reflexivity. }
    assert (N2 : forall i, (k <= i < length matrix)%nat -> nth_error (map snd done ++ repeat false (length matrix - k)) i = Some false).
    { intros i Hi. rewrite nth_error_app2 by (rewrite map_length; lia). rewrite map_length, Ld.
      rewrite nth_error_repeat. destruct (Nat.ltb_spec (i - k) (length matrix - k)); [auto|lia]. }
    assert (N3 : forall i, (i < k)%nat -> nth_error (firstn k matrix) i = nth_error matrix i).
    { intros i Hi. rewrite <- (firstn_skipn k matrix) at 2. rewrite nth_error_app1 by lia. auto. }
    assert (N4 : forall i, (i <= k)%nat -> firstn i (firstn k matrix) = firstn i matrix).
    { intros i Hi. rewrite firstn_firstn. f_equal. lia. }
    split; [exact Lfl|]. split; [|split].
    + intros i row Hr Hb Hi. assert (Li := nth_error_lt _ _ _ Hr). assert (Hk : (i < k)%nat) by lia.
      destruct (N1 i _ Hk Hb) as [r Er]. rewrite <- N3 in Hr by auto.
      rewrite <- (N4 i) by lia. exact (rd_near _ _ _ _ _ Hf i row r Hr Er).
    + intros i Hi. apply N2. lia.
    + intros Hex.
      assert (Hex' : forall i v r, nth_error (firstn k matrix) i = Some v -> nth_error done i = Some (r, false) ->
        dependent n (firstn i (firstn k matrix)) v).
      { intros i v r Hv Hd. assert (Li := nth_error_lt _ _ _ Hv). rewrite Lk in Li. rewrite N4 by lia.
        rewrite N3 in Hv by lia. apply (Hex i v Hv); [eauto|]. unfold k in Li. lia. }
      assert (Q : forall i row, nth_error matrix i = Some row ->
        nth_error (map snd done ++ repeat false (length matrix - k)) i = Some true -> ~ dependent n (firstn i matrix) row).
      { intros i row Hr Hb. assert (Li := nth_error_lt _ _ _ Hr).
        destruct (le_lt_dec k i) as [Hk|Hk].
        { rewrite N2 in Hb by lia. discriminate. }
        destruct (N1 i _ Hk Hb) as [r Er]. rewrite <- (N4 i) by lia.
        apply (proj2 (rd_exact _ _ _ _ _ Hf Hex')) with (r := r); auto.
        now rewrite N3. }
      split; [exact Q|]. apply select_independent; auto.
  - intros pre row post [[d c] u] st' E RD S. 
    assert (Lr : length row = n).
    { apply Hm. assert (Hin : In row (firstn k matrix)) by (rewrite E; apply in_app_iff; simpl; auto).
      rewrite <- (firstn_skipn k matrix). apply in_app_iff; auto. }
    exact (gj_row_spec n pre d c u row st' RD Lr S).
  - constructor; try (simpl; intros; contradiction).
    + reflexivity.
    + apply Permutation_refl.
    + reflexivity.
    + intros i r c Hi. destruct i; discriminate.
    + intros i j r c Hi. destruct i; discriminate.
    + intros i v r Hi. destruct i; discriminate.
    + intros _. split; [intros r j []|]. intros i v r Hi. destruct i; discriminate.
Qed.
