(** The tables and the workspace of the column ordering as functions, segments of
    the workspace, and sums over lists of columns *)
From Coq Require Import List Arith ZArith Lia Bool Permutation.
From Verif Require Import Outcome Lib ModelColamd Spec_Colamd Proofs_Zlist Proofs_Order.
Import ListNotations.
Local Open Scope Z_scope.

Definition drow : crow := CRow 0 0 0 0.
Definition fupd (f : Z -> Z) (i x : Z) : Z -> Z := fun j => if i =? j then x else f j.
Arguments fupd : simpl never.
Lemma fupd_same f i x : fupd f i x i = x.
Proof. unfold fupd. now rewrite Z.eqb_refl. Qed.
Lemma fupd_other f i x j : i <> j -> fupd f i x j = f j.
Proof. intros H. unfold fupd. now destruct (Z.eqb_spec i j). Qed.

(** Each field of the tables, the workspace and the heads *)
Record view := View {
  rs : Z -> Z; rl : Z -> Z; r1 : Z -> Z; r2 : Z -> Z;
  cs : Z -> Z; cl : Z -> Z; c1 : Z -> Z; c2 : Z -> Z; c3 : Z -> Z; c4 : Z -> Z;
  me : Z -> Z; he : Z -> Z }.

Definition up_rs v f := View f (rl v) (r1 v) (r2 v) (cs v) (cl v) (c1 v) (c2 v) (c3 v) (c4 v) (me v) (he v).
Definition up_rl v f := View (rs v) f (r1 v) (r2 v) (cs v) (cl v) (c1 v) (c2 v) (c3 v) (c4 v) (me v) (he v).
Definition up_r1 v f := View (rs v) (rl v) f (r2 v) (cs v) (cl v) (c1 v) (c2 v) (c3 v) (c4 v) (me v) (he v).
Definition up_r2 v f := View (rs v) (rl v) (r1 v) f (cs v) (cl v) (c1 v) (c2 v) (c3 v) (c4 v) (me v) (he v).
Definition up_cs v f := View (rs v) (rl v) (r1 v) (r2 v) f (cl v) (c1 v) (c2 v) (c3 v) (c4 v) (me v) (he v).
Definition up_cl v f := View (rs v) (rl v) (r1 v) (r2 v) (cs v) f (c1 v) (c2 v) (c3 v) (c4 v) (me v) (he v).
Definition up_c1 v f := View (rs v) (rl v) (r1 v) (r2 v) (cs v) (cl v) f (c2 v) (c3 v) (c4 v) (me v) (he v).
Definition up_c2 v f := View (rs v) (rl v) (r1 v) (r2 v) (cs v) (cl v) (c1 v) f (c3 v) (c4 v) (me v) (he v).
Definition up_c3 v f := View (rs v) (rl v) (r1 v) (r2 v) (cs v) (cl v) (c1 v) (c2 v) f (c4 v) (me v) (he v).
Definition up_c4 v f := View (rs v) (rl v) (r1 v) (r2 v) (cs v) (cl v) (c1 v) (c2 v) (c3 v) f (me v) (he v).
Definition up_me v f := View (rs v) (rl v) (r1 v) (r2 v) (cs v) (cl v) (c1 v) (c2 v) (c3 v) (c4 v) f (he v).
Definition up_he v f := View (rs v) (rl v) (r1 v) (r2 v) (cs v) (cl v) (c1 v) (c2 v) (c3 v) (c4 v) (me v) f.

Ltac vsimpl H := unfold up_rs, up_rl, up_r1, up_r2, up_cs, up_cl, up_c1, up_c2, up_c3, up_c4, up_me, up_he in H;
  cbn [rs rl r1 r2 cs cl c1 c2 c3 c4 me he] in H.
Ltac vgoal := unfold up_rs, up_rl, up_r1, up_r2, up_cs, up_cl, up_c1, up_c2, up_c3, up_c4, up_me, up_he;
  cbn [rs rl r1 r2 cs cl c1 c2 c3 c4 me he].

Definition vrow v r := CRow (rs v r) (rl v r) (r1 v r) (r2 v r).
Definition vcol v c := CCol (cs v c) (cl v c) (c1 v c) (c2 v c) (c3 v c) (c4 v c).

(** The view that a state is *)
Definition view_of (w : work) : view :=
  let r := znth drow (wk_rows w) in let c := znth dcol (wk_cols w) in
  View (fun i => rw_start (r i)) (fun i => rw_length (r i)) (fun i => rw_shared1 (r i)) (fun i => rw_shared2 (r i))
       (fun i => cl_start (c i)) (fun i => cl_length (c i)) (fun i => cl_shared1 (c i)) (fun i => cl_shared2 (c i))
       (fun i => cl_shared3 (c i)) (fun i => cl_shared4 (c i)) (znth 0 (wk_A w)) (znth 0 (wk_head w)).

(** Sums *)
Definition zsum (f : Z -> Z) (l : list Z) : Z := fold_right (fun x s => f x + s) 0 l.

(** The entries of [m] from [s] on *)
Definition seg (m : Z -> Z) (s l : Z) : list Z := map m (zrange s (s + l)).

Section View.
  Variables nr n na : Z.

  Record rep (w : work) (v : view) : Prop := {
    rp_nr : zlen (wk_rows w) = nr + 1;
    rp_n : zlen (wk_cols w) = n + 1;
    rp_na : zlen (wk_A w) = na;
    rp_nh : zlen (wk_head w) = n + 1;
    rp_row : forall r, 0 <= r <= nr -> znth drow (wk_rows w) r = vrow v r;
    rp_col : forall c, 0 <= c <= n -> znth dcol (wk_cols w) c = vcol v c;
    rp_me : forall i, 0 <= i < na -> znth 0 (wk_A w) i = me v i;
    rp_he : forall s, 0 <= s <= n -> znth 0 (wk_head w) s = he v s
  }.

  Lemma rep_ext w v v' : rep w v ->
    (forall r, 0 <= r <= nr -> rs v' r = rs v r /\ rl v' r = rl v r /\ r1 v' r = r1 v r /\ r2 v' r = r2 v r) ->
    (forall c, 0 <= c <= n -> cs v' c = cs v c /\ cl v' c = cl v c /\ c1 v' c = c1 v c /\ c2 v' c = c2 v c /\
      c3 v' c = c3 v c /\ c4 v' c = c4 v c) ->
    (forall i, 0 <= i < na -> me v' i = me v i) -> (forall s, 0 <= s <= n -> he v' s = he v s) -> rep w v'.
  Proof.
    intros R Er Ec Em Eh. destruct R. constructor; auto.
    - intros r Hr. rewrite rp_row0 by auto. unfold vrow. destruct (Er r Hr) as (-> & -> & -> & ->). reflexivity.
    - intros c Hc. rewrite rp_col0 by auto. unfold vcol. destruct (Ec c Hc) as (-> & -> & -> & -> & -> & ->). reflexivity.
    - intros i Hi. rewrite rp_me0, Em by auto. reflexivity.
    - intros i Hi. rewrite rp_he0, Eh by auto. reflexivity.
  Qed.
  Lemma rep_view w : zlen (wk_rows w) = nr + 1 -> zlen (wk_cols w) = n + 1 -> zlen (wk_A w) = na -> zlen (wk_head w) = n + 1 ->
    rep w (view_of w).
  Proof.
    intros. constructor; auto; intros; unfold vrow, vcol, view_of; cbn.
    - now destruct (znth drow (wk_rows w) r).
    - now destruct (znth dcol (wk_cols w) c).
  Qed.

  Lemma row_at_ok w v r : rep w v -> 0 <= r <= nr -> row_at w r = Done (vrow v r).
  Proof. intros R H. unfold row_at. rewrite (zget_ok drow) by (rewrite (rp_nr _ _ R); lia). now rewrite (rp_row _ _ R) by auto. Qed.
  Lemma col_at_ok w v c : rep w v -> 0 <= c <= n -> col_at w c = Done (vcol v c).
  Proof. intros R H. unfold col_at. rewrite (zget_ok dcol) by (rewrite (rp_n _ _ R); lia). now rewrite (rp_col _ _ R) by auto. Qed.
  Lemma mem_at_ok w v i : rep w v -> 0 <= i < na -> mem_at w i = Done (me v i).
  Proof. intros R H. unfold mem_at. rewrite (zget_ok 0) by (rewrite (rp_na _ _ R); lia). now rewrite (rp_me _ _ R) by auto. Qed.
  Lemma head_at_ok w v s : rep w v -> 0 <= s <= n -> head_at w s = Done (he v s).
  Proof. intros R H. unfold head_at. rewrite (zget_ok 0) by (rewrite (rp_nh _ _ R); lia). now rewrite (rp_he _ _ R) by auto. Qed.

  Lemma set_row_ok w v r f v' : rep w v -> 0 <= r <= nr ->
    (forall j, vrow v' j = if r =? j then f (vrow v r) else vrow v j) -> (forall j, vcol v' j = vcol v j) ->
    me v' = me v -> he v' = he v ->
    exists w', set_row w r f = Done w' /\ rep w' v'.
  Proof.
    intros R H E Ec Em Eh. unfold set_row. pose proof (rp_nr _ _ R). rewrite (zupdate_ok drow) by lia. cbn [obind].
    eexists. split; [reflexivity|]. rewrite (rp_row _ _ R) by auto. destruct R. constructor; cbn; auto.
    - now rewrite zlen_put.
    - intros j Hj. rewrite znth_put by lia. rewrite E. destruct (r =? j); auto.
    - intros c Hc. rewrite Ec. auto.
    - intros i Hi. rewrite Em. auto.
    - intros i Hi. rewrite Eh. auto.
  Qed.
  Lemma set_col_ok w v c f v' : rep w v -> 0 <= c <= n ->
    (forall j, vcol v' j = if c =? j then f (vcol v c) else vcol v j) -> (forall j, vrow v' j = vrow v j) ->
    me v' = me v -> he v' = he v ->
    exists w', set_col w c f = Done w' /\ rep w' v'.
  Proof.
    intros R H E Ec Em Eh. unfold set_col. pose proof (rp_n _ _ R). rewrite (zupdate_ok dcol) by lia. cbn [obind].
    eexists. split; [reflexivity|]. rewrite (rp_col _ _ R) by auto. destruct R. constructor; cbn; auto.
    - now rewrite zlen_put.
    - intros r Hr. rewrite Ec. auto.
    - intros j Hj. rewrite znth_put by lia. rewrite E. destruct (c =? j); auto.
    - intros i Hi. rewrite Em. auto.
    - intros i Hi. rewrite Eh. auto.
  Qed.
  Lemma set_mem_ok w v i x : rep w v -> 0 <= i < na -> exists w', set_mem w i x = Done w' /\ rep w' (up_me v (fupd (me v) i x)).
  Proof.
    intros R H. unfold set_mem. pose proof (rp_na _ _ R). rewrite zset_ok by lia. cbn [obind].
    eexists. split; [reflexivity|]. destruct R. constructor; cbn; auto.
    - now rewrite zlen_put.
    - intros j Hj. rewrite znth_put by lia. unfold fupd. destruct (i =? j); auto.
  Qed.
  Lemma set_head_ok w v i x : rep w v -> 0 <= i <= n -> exists w', set_head w i x = Done w' /\ rep w' (up_he v (fupd (he v) i x)).
  Proof.
    intros R H. unfold set_head. pose proof (rp_nh _ _ R). rewrite zset_ok by lia. cbn [obind].
    eexists. split; [reflexivity|]. destruct R. constructor; cbn; auto.
    - now rewrite zlen_put.
    - intros j Hj. rewrite znth_put by lia. unfold fupd. destruct (i =? j); auto.
  Qed.

  Ltac field := intros; first [eapply set_row_ok|eapply set_col_ok]; eauto; intros j; unfold vrow, vcol; cbn; unfold fupd;
    match goal with |- context [?r =? j] => destruct (Z.eqb_spec r j); subst; reflexivity end.
  Lemma set_r1 w v r x : rep w v -> 0 <= r <= nr -> exists w', set_row w r (rw_set_shared1 x) = Done w' /\ rep w' (up_r1 v (fupd (r1 v) r x)).
  Proof. field. Qed.
  Lemma set_r2 w v r x : rep w v -> 0 <= r <= nr -> exists w', set_row w r (rw_set_shared2 x) = Done w' /\ rep w' (up_r2 v (fupd (r2 v) r x)).
  Proof. field. Qed.
  Lemma set_rs w v r x : rep w v -> 0 <= r <= nr -> exists w', set_row w r (rw_set_start x) = Done w' /\ rep w' (up_rs v (fupd (rs v) r x)).
  Proof. field. Qed.
  Lemma set_rl w v r x : rep w v -> 0 <= r <= nr -> exists w', set_row w r (rw_set_length x) = Done w' /\ rep w' (up_rl v (fupd (rl v) r x)).
  Proof. field. Qed.
  Lemma set_cs w v c x : rep w v -> 0 <= c <= n -> exists w', set_col w c (cl_set_start x) = Done w' /\ rep w' (up_cs v (fupd (cs v) c x)).
  Proof. field. Qed.
  Lemma set_cl w v c x : rep w v -> 0 <= c <= n -> exists w', set_col w c (cl_set_length x) = Done w' /\ rep w' (up_cl v (fupd (cl v) c x)).
  Proof. field. Qed.
  Lemma set_c1 w v c x : rep w v -> 0 <= c <= n -> exists w', set_col w c (cl_set_shared1 x) = Done w' /\ rep w' (up_c1 v (fupd (c1 v) c x)).
  Proof. field. Qed.
  Lemma set_c2 w v c x : rep w v -> 0 <= c <= n -> exists w', set_col w c (cl_set_shared2 x) = Done w' /\ rep w' (up_c2 v (fupd (c2 v) c x)).
  Proof. field. Qed.
  Lemma set_c3 w v c x : rep w v -> 0 <= c <= n -> exists w', set_col w c (cl_set_shared3 x) = Done w' /\ rep w' (up_c3 v (fupd (c3 v) c x)).
  Proof. field. Qed.
  Lemma set_c4 w v c x : rep w v -> 0 <= c <= n -> exists w', set_col w c (cl_set_shared4 x) = Done w' /\ rep w' (up_c4 v (fupd (c4 v) c x)).
  Proof. field. Qed.
End View.

(* ----- sums ----- *)

Lemma zsum_app f l l' : zsum f (l ++ l') = zsum f l + zsum f l'.
Proof. induction l as [|x l IH]; cbn; [reflexivity|]. fold (zsum f (l ++ l')). fold (zsum f l). lia. Qed.
Lemma zsum_cons f x l : zsum f (x :: l) = f x + zsum f l.
Proof. reflexivity. Qed.
Lemma zsum_ext f g l : (forall x, In x l -> f x = g x) -> zsum f l = zsum g l.
Proof. induction l as [|x l IH]; intros H; [reflexivity|]. rewrite !zsum_cons. rewrite H by (left; auto). rewrite IH; auto. intros y Hy. apply H. now right. Qed.
Lemma zsum_nonneg f l : (forall x, In x l -> 0 <= f x) -> 0 <= zsum f l.
Proof. induction l as [|x l IH]; intros H; [cbn; lia|]. rewrite zsum_cons. pose proof (H x (or_introl eq_refl)). assert (0 <= zsum f l) by (apply IH; intros; apply H; now right). lia. Qed.
Lemma zsum_le f g l : (forall x, In x l -> f x <= g x) -> zsum f l <= zsum g l.
Proof. induction l as [|x l IH]; intros H; [cbn; lia|]. rewrite !zsum_cons. pose proof (H x (or_introl eq_refl)). assert (zsum f l <= zsum g l) by (apply IH; intros; apply H; now right). lia. Qed.
Lemma zsum_one l : zsum (fun _ => 1) l = zlen l.
Proof. unfold zlen. induction l as [|x l IH]; [reflexivity|]. rewrite zsum_cons, IH. cbn [length]. lia. Qed.
Lemma zsum_zlen f l : (forall x, In x l -> 1 <= f x) -> zlen l <= zsum f l.
Proof. intros H. rewrite <- zsum_one. now apply zsum_le. Qed.
Lemma zsum_perm f l l' : Permutation l l' -> zsum f l = zsum f l'.
Proof. induction 1; rewrite ?zsum_cons; try lia; reflexivity. Qed.
Lemma zsum_split f p l : zsum f l = zsum f (filter p l) + zsum f (filter (fun x => negb (p x)) l).
Proof. induction l as [|x l IH]; [reflexivity|]. cbn [filter]. destruct (p x); cbn [negb]; rewrite !zsum_cons; lia. Qed.
Lemma zsum_incl f l l' : NoDup l -> incl l l' -> (forall x, In x l' -> 0 <= f x) -> zsum f l <= zsum f l'.
Proof.
  intros N. revert l'. induction N as [|x l Hx N IH]; intros l' I P; [cbn; now apply zsum_nonneg|].
  destruct (in_split x l') as (a & b & E); [apply I; now left|]. subst l'.
  rewrite zsum_cons. rewrite zsum_app, zsum_cons.
  assert (zsum f l <= zsum f (a ++ b)).
  { apply IH.
    - intros y Hy. assert (In y (a ++ x :: b)) as Hi by (apply I; now right). apply in_app_iff in Hi. apply in_app_iff.
      destruct Hi as [Hi|[Hi|Hi]]; auto. subst. contradiction.
    - intros y Hy. apply P. apply in_app_iff in Hy. apply in_app_iff. destruct Hy; auto. right. now right. }
  rewrite zsum_app in H. lia.
Qed.
Lemma zsum_same f l l' : NoDup l -> NoDup l' -> (forall x, In x l <-> In x l') -> zsum f l = zsum f l'.
Proof. intros N N' H. apply zsum_perm. now apply NoDup_Permutation. Qed.
Lemma zsum_minus f g l : zsum (fun x => f x - g x) l = zsum f l - zsum g l.
Proof. induction l as [|x l IH]; [reflexivity|]. rewrite !zsum_cons. lia. Qed.
Lemma zlen_app {A} (l l' : list A) : zlen (l ++ l') = zlen l + zlen l'.
Proof. unfold zlen. rewrite app_length. lia. Qed.
Lemma zlen_cons {A} (x : A) l : zlen (x :: l) = 1 + zlen l.
Proof. unfold zlen. cbn [length]. lia. Qed.
Lemma zlen_nil {A} : zlen (@nil A) = 0. Proof. reflexivity. Qed.
Lemma zlen_filter {A} (p : A -> bool) l : zlen (filter p l) <= zlen l.
Proof. induction l as [|x l IH]; [cbn; lia|]. cbn [filter]. destruct (p x); rewrite ?zlen_cons; lia. Qed.
Lemma zlen_filter_lt {A} (p : A -> bool) l x : In x l -> p x = false -> zlen (filter p l) + 1 <= zlen l.
Proof.
  intros H P. apply in_split in H. destruct H as (a & b & ->). rewrite filter_app. cbn [filter]. rewrite P.
  rewrite !zlen_app, zlen_cons. pose proof (zlen_filter p a). pose proof (zlen_filter p b). lia.
Qed.
Lemma zlen_0 {A} (l : list A) : zlen l = 0 -> l = [].
Proof. unfold zlen. destruct l; [auto|cbn; lia]. Qed.
Lemma filter_ext_In {A} (p q : A -> bool) l : (forall x, In x l -> p x = q x) -> filter p l = filter q l.
Proof. induction l as [|x l IH]; intros H; [reflexivity|]. cbn. rewrite H by now left. rewrite IH; [reflexivity|]. intros; apply H; now right. Qed.
Lemma filter_all {A} (p : A -> bool) l : (forall x, In x l -> p x = true) -> filter p l = l.
Proof. induction l as [|x l IH]; intros H; [reflexivity|]. cbn. rewrite H by now left. rewrite IH; [reflexivity|]. intros; apply H; now right. Qed.
Lemma filter_none {A} (p : A -> bool) l : (forall x, In x l -> p x = false) -> filter p l = [].
Proof. induction l as [|x l IH]; intros H; [reflexivity|]. cbn. rewrite H by now left. apply IH. intros; apply H; now right. Qed.
Lemma filter_filter {A} (p q : A -> bool) l : filter p (filter q l) = filter (fun x => q x && p x) l.
Proof. induction l as [|x l IH]; [reflexivity|]. cbn. destruct (q x); cbn; [destruct (p x)|]; rewrite IH; reflexivity. Qed.

(* ----- segments ----- *)

Lemma seg_length m s l : 0 <= l -> zlen (seg m s l) = l.
Proof. intros H. unfold seg, zlen. rewrite map_length, zrange_length. lia. Qed.
Lemma seg_nil m s l : l <= 0 -> seg m s l = [].
Proof. intros H. unfold seg. now rewrite zrange_nil by lia. Qed.
Lemma seg_snoc m s l : 0 <= l -> seg m s (l + 1) = seg m s l ++ [m (s + l)].
Proof. intros H. unfold seg. rewrite Z.add_assoc, zrange_snoc by lia. now rewrite map_app. Qed.
Lemma seg_cons m s l : 0 < l -> seg m s l = m s :: seg m (s + 1) (l - 1).
Proof. intros H. unfold seg. rewrite zrange_cons by lia. cbn. f_equal. f_equal. f_equal. lia. Qed.
Lemma seg_app m s a b : 0 <= a -> 0 <= b -> seg m s (a + b) = seg m s a ++ seg m (s + a) b.
Proof. intros Ha Hb. unfold seg. rewrite (zrange_app s (s + a)) by lia. rewrite map_app. f_equal. f_equal. f_equal. lia. Qed.
Lemma In_seg m s l x : In x (seg m s l) <-> exists i, s <= i < s + l /\ x = m i.
Proof. unfold seg. rewrite in_map_iff. split; intros (i & A & B); exists i; [rewrite In_zrange in B|rewrite In_zrange]; auto. Qed.
Lemma seg_ext m m' s l : (forall i, s <= i < s + l -> m i = m' i) -> seg m s l = seg m' s l.
Proof. intros H. unfold seg. apply map_ext_in. intros i Hi. apply In_zrange in Hi. auto. Qed.
Lemma nth_zrange a b i : (i < Z.to_nat (b - a))%nat -> nth i (zrange a b) 0 = a + Z.of_nat i.
Proof.
  intros H. unfold zrange. rewrite (nth_indep _ 0 (a + Z.of_nat 0)) by now rewrite map_length, seq_length.
  rewrite (map_nth (fun i => a + Z.of_nat i)). rewrite seq_nth by lia. reflexivity.
Qed.
Lemma znth_seg m s l i : 0 <= i < l -> znth 0 (seg m s l) i = m (s + i).
Proof.
  intros H. unfold znth, seg. destruct (Z.ltb_spec i 0); [lia|].
  rewrite (nth_indep _ 0 (m 0)) by (rewrite map_length, zrange_length; lia). rewrite map_nth.
  rewrite nth_zrange by lia. f_equal. lia.
Qed.
Lemma seg_of_list m s (l : list Z) : (forall i, 0 <= i < zlen l -> m (s + i) = znth 0 l i) -> seg m s (zlen l) = l.
Proof.
  revert s. induction l as [|x l IH]; intros s H; [apply seg_nil; cbn; lia|]. rewrite zlen_cons.
  pose proof (zlen_nonneg l). rewrite seg_cons by lia. f_equal.
  - specialize (H 0). rewrite zlen_cons, Z.add_0_r in H. rewrite H by lia. reflexivity.
  - replace (1 + zlen l - 1) with (zlen l) by lia. apply IH. intros i Hi.
    specialize (H (i + 1)). rewrite zlen_cons in H. replace (s + 1 + i) with (s + (i + 1)) by lia. rewrite H by lia.
    unfold znth. destruct (Z.ltb_spec (i + 1) 0), (Z.ltb_spec i 0); try lia.
    replace (Z.to_nat (i + 1)) with (S (Z.to_nat i)) by lia. reflexivity.
Qed.
Lemma seg_split m s l i : s <= i < s + l -> seg m s l = seg m s (i - s) ++ m i :: seg m (i + 1) (s + l - i - 1).
Proof.
  intros H. replace l with ((i - s) + (s + l - i)) at 1 by lia. rewrite seg_app by lia. f_equal.
  replace (s + (i - s)) with i by lia. rewrite seg_cons by lia. reflexivity.
Qed.
Lemma seg_fupd_out m s l i x : ~ (s <= i < s + l) -> seg (fupd m i x) s l = seg m s l.
Proof. intros H. apply seg_ext. intros j Hj. apply fupd_other. lia. Qed.

(** A loop that reads a segment *)
Lemma seg_loop {S} (P : list Z -> S -> Prop) (f : S -> Z -> outcome S) m s l : 0 <= l ->
  (forall i pre post st, s <= i < s + l -> seg m s l = pre ++ m i :: post -> zlen pre = i - s -> P pre st ->
     exists st', f st i = Done st' /\ P (pre ++ [m i]) st') ->
  forall st, P [] st -> exists st', ofold f (zrange s (s + l)) st = Done st' /\ P (seg m s l) st'.
Proof.
  intros Hl Hf st H0.
  destruct (zloop (fun i st => P (seg m s (i - s)) st) f s (s + l)) with (s := st) as (st' & E & H).
  - lia.
  - intros i t Hi Ht. destruct (Hf i (seg m s (i - s)) (seg m (i + 1) (s + l - i - 1)) t Hi) as (t' & E & H).
    + now apply seg_split.
    + apply seg_length. lia.
    + exact Ht.
    + exists t'. split; auto. replace (i + 1 - s) with (i - s + 1) by lia. rewrite seg_snoc by lia.
      replace (s + (i - s)) with i by lia. exact H.
  - rewrite seg_nil by lia. exact H0.
  - exists st'. split; auto. replace l with (s + l - s) by lia. exact H.
Qed.

(** Copying down the entries that pass a test: after the entries of [m] from [s] to
    [i] were copied to [d] on, the memory is [m'] and the next place [e] *)
Definition compacted (p : Z -> bool) (m : Z -> Z) (s d i : Z) (m' : Z -> Z) (e : Z) : Prop :=
  e = d + zlen (filter p (seg m s (i - s))) /\
  forall j, m' j = if (d <=? j) && (j <? e) then znth 0 (filter p (seg m s (i - s))) (j - d) else m j.
Lemma compacted_start p m s d : compacted p m s d s m d.
Proof.
  split.
  - rewrite seg_nil by lia. cbn. lia.
  - intros j. destruct (Z.leb_spec d j), (Z.ltb_spec j d); cbn; auto; lia.
Qed.
Lemma compacted_bound p m s d i m' e : s <= i -> compacted p m s d i m' e -> d <= e <= d + (i - s).
Proof.
  intros H (-> & _). pose proof (zlen_filter p (seg m s (i - s))). rewrite seg_length in H0 by lia.
  pose proof (zlen_nonneg (filter p (seg m s (i - s)))). lia.
Qed.
Lemma compacted_here p m s d i m' e j : s <= i -> d <= s -> compacted p m s d i m' e -> i <= j -> m' j = m j.
Proof.
  intros H1 H2 H H3. pose proof (compacted_bound _ _ _ _ _ _ _ H1 H). destruct H as (-> & H). rewrite H.
  destruct (Z.leb_spec d j), (Z.ltb_spec j (d + zlen (filter p (seg m s (i - s))))); cbn; auto; lia.
Qed.
Lemma znth_app_l {A} (d : A) l l' i : i < zlen l -> znth d (l ++ l') i = znth d l i.
Proof. unfold znth, zlen. intros H. destruct (Z.ltb_spec i 0); auto. apply app_nth1. lia. Qed.
Lemma znth_app_r {A} (d : A) l l' i : zlen l <= i -> znth d (l ++ l') i = znth d l' (i - zlen l).
Proof.
  unfold znth, zlen. intros H. destruct (Z.ltb_spec i 0); [lia|]. destruct (Z.ltb_spec (i - Z.of_nat (length l)) 0); [lia|].
  rewrite app_nth2 by lia. f_equal. lia.
Qed.
Lemma znth_app_mid {A} (d : A) l x l' : znth d (l ++ x :: l') (zlen l) = x.
Proof. rewrite znth_app_r by lia. rewrite Z.sub_diag. reflexivity. Qed.
Lemma compacted_keep p m s d i m' e : s <= i -> d <= s -> compacted p m s d i m' e -> p (m i) = true ->
  compacted p m s d (i + 1) (fupd m' e (m i)) (e + 1).
Proof.
  intros H1 H2 (He & H) Pi. unfold compacted. replace (i + 1 - s) with (i - s + 1) by lia.
  rewrite seg_snoc by lia. replace (s + (i - s)) with i by lia. rewrite filter_app. cbn [filter]. rewrite Pi.
  pose proof (zlen_nonneg (filter p (seg m s (i - s)))) as N.
  split; [rewrite zlen_app, zlen_cons; cbn; lia|]. intros j. unfold fupd. rewrite H.
  destruct (Z.eqb_spec e j) as [<-|Ne].
  - destruct (Z.leb_spec d e), (Z.ltb_spec e (e + 1)); cbn [andb]; try lia. rewrite He at 1.
    rewrite Z.add_simpl_l. now rewrite znth_app_mid.
  - destruct (Z.leb_spec d j); cbn [andb]; auto. destruct (Z.ltb_spec j e), (Z.ltb_spec j (e + 1)); cbn; try lia; auto.
    rewrite znth_app_l by lia. reflexivity.
Qed.
Lemma compacted_skip p m s d i m' e : s <= i -> d <= s -> compacted p m s d i m' e -> p (m i) = false ->
  compacted p m s d (i + 1) m' e.
Proof.
  intros H1 H2 (He & H) Pi. unfold compacted. replace (i + 1 - s) with (i - s + 1) by lia.
  rewrite seg_snoc by lia. replace (s + (i - s)) with i by lia. rewrite filter_app. cbn [filter]. rewrite Pi.
  rewrite app_nil_r. auto.
Qed.
Lemma compacted_seg p m s d l m' e : 0 <= l -> compacted p m s d (s + l) m' e -> seg m' d (e - d) = filter p (seg m s l).
Proof.
  intros Hl (He & H). replace (s + l - s) with l in * by lia.
  replace (e - d) with (zlen (filter p (seg m s l))) by lia. apply seg_of_list. intros i Hi. rewrite H.
  destruct (Z.leb_spec d (d + i)), (Z.ltb_spec (d + i) e); cbn [andb]; try lia. f_equal. lia.
Qed.
Lemma compacted_out p m s d i m' e j : compacted p m s d i m' e -> ~ (d <= j < e) -> m' j = m j.
Proof. intros (_ & H) N. rewrite H. destruct (Z.leb_spec d j), (Z.ltb_spec j e); cbn; auto; lia. Qed.
