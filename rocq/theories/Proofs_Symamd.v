(** The matrix that [symamd] orders instead of its argument has sorted columns and
    is made from the part below the diagonal alone (colamd.rs 160-352). *)
From Coq Require Import List Arith ZArith Lia Bool Permutation.
From Verif Require Import Outcome Lib ModelSparse ModelColamd ModelSymamd Spec_Colamd Spec_Symamd Proofs_Zlist Proofs_Order Proofs_View Proofs_Gather Proofs_Colamd.
Import ListNotations.
Local Open Scope Z_scope.

(* ----- lists ----- *)

Lemma list_of_znth (l l' : list Z) : zlen l = zlen l' -> (forall i, 0 <= i < zlen l -> znth 0 l i = znth 0 l' i) -> l = l'.
Proof.
  unfold zlen. intros L H. apply (nth_ext _ _ 0 0); [lia|]. intros i Hi. specialize (H (Z.of_nat i) ltac:(lia)).
  unfold znth in H. destruct (Z.ltb_spec (Z.of_nat i) 0); [lia|]. now rewrite Nat2Z.id in H.
Qed.
Lemma existsb_memb x l : existsb (Z.eqb x) l = memb x l.
Proof. reflexivity. Qed.
Lemma distinct_snoc l : forall seen x, distinct_from seen (l ++ [x]) = distinct_from seen l ++ (if memb x (seen ++ l) then [] else [x]).
Proof.
  induction l as [|y l IH]; intros seen x; cbn [app distinct_from].
  - rewrite existsb_memb, app_nil_r. now destruct (memb x seen).
  - rewrite existsb_memb. destruct (memb y seen) eqn:M.
    + rewrite IH. f_equal. replace (memb x (seen ++ y :: l)) with (memb x (seen ++ l)); [reflexivity|].
      apply eq_true_iff_eq. rewrite !memb_In, !in_app_iff. cbn. apply memb_In in M. intuition (subst; auto).
    + rewrite IH. cbn [app]. f_equal. f_equal. replace (memb x (seen ++ y :: l)) with (memb x ((y :: seen) ++ l)); [reflexivity|].
      apply eq_true_iff_eq. rewrite !memb_In, !in_app_iff. cbn. rewrite ?in_app_iff. tauto.
Qed.
Lemma distinct_In l : forall seen x, In x (distinct_from seen l) -> In x l.
Proof.
  induction l as [|y l IH]; intros seen x H; [exact H|]. cbn in H. destruct (existsb (Z.eqb y) seen); [right; eauto|].
  destruct H as [-> |H]; [left; auto|right; eauto].
Qed.
Lemma distinct_id l : forall seen, NoDup l -> (forall x, In x l -> ~ In x seen) -> distinct_from seen l = l.
Proof.
  induction l as [|y l IH]; intros seen N H; [reflexivity|]. cbn. rewrite existsb_memb.
  rewrite (proj2 (memb_false y seen)) by (apply H; left; auto). inversion N; subst. f_equal. apply IH; auto.
  intros x Hx [-> |X]; [auto|]. apply (H x); [right; auto|auto].
Qed.

(* ----- the pairs ----- *)

(** How often [c] is one of a pair, and the numbers of these pairs *)
Definition cnt (c : Z) (L : list (Z * Z)) : Z := zlen (filter (fun ij => (fst ij =? c) || (snd ij =? c)) L).
Fixpoint places (c : Z) (L : list (Z * Z)) (k : Z) : list Z :=
  match L with
  | [] => []
  | ij :: L => if (fst ij =? c) || (snd ij =? c) then k :: places c L (k + 1) else places c L (k + 1)
  end.

Lemma cnt_app c L L' : cnt c (L ++ L') = cnt c L + cnt c L'.
Proof. unfold cnt. rewrite filter_app. apply zlen_app. Qed.
Lemma cnt_nonneg c L : 0 <= cnt c L.
Proof. apply zlen_nonneg. Qed.
Lemma cnt_one c i j : cnt c [(i, j)] = if (i =? c) || (j =? c) then 1 else 0.
Proof. unfold cnt. cbn. destruct ((i =? c) || (j =? c)); reflexivity. Qed.
Lemma places_length c L : forall k, zlen (places c L k) = cnt c L.
Proof.
  induction L as [|ij L IH]; intros k; [reflexivity|]. unfold cnt in *. cbn. destruct ((fst ij =? c) || (snd ij =? c)); auto.
  rewrite !zlen_cons. rewrite IH. reflexivity.
Qed.
Lemma places_app c L L' : forall k, places c (L ++ L') k = places c L k ++ places c L' (k + zlen L).
Proof.
  induction L as [|ij L IH]; intros k; cbn [app places].
  - rewrite zlen_nil. now rewrite Z.add_0_r.
  - rewrite IH, zlen_cons. replace (k + 1 + zlen L) with (k + (1 + zlen L)) by lia. rewrite ?(Z.add_comm 1). destruct ((fst ij =? c) || (snd ij =? c)); reflexivity.
Qed.
Lemma places_range c L : forall k x, In x (places c L k) -> k <= x < k + zlen L.
Proof.
  induction L as [|ij L IH]; intros k x H; [destruct H|]. cbn in H. rewrite zlen_cons. pose proof (zlen_nonneg L).
  destruct ((fst ij =? c) || (snd ij =? c)); [destruct H as [<-|H]; [lia|]|]; apply IH in H; lia.
Qed.
Lemma places_sorted c L : forall k t, 0 <= t -> t + 1 < cnt c L -> znth 0 (places c L k) t < znth 0 (places c L k) (t + 1).
Proof.
  induction L as [|ij L IH]; intros k t Ht H; [cbn in H; lia|]. unfold cnt in *. cbn in *.
  destruct ((fst ij =? c) || (snd ij =? c)); [|apply IH; auto]. rewrite zlen_cons in H.
  assert (Z1 : forall (x : Z) l i, 0 < i -> znth 0 (x :: l) i = znth 0 l (i - 1)).
  { intros x l i Hi. unfold znth. destruct (Z.ltb_spec i 0), (Z.ltb_spec (i - 1) 0); try lia.
    replace (Z.to_nat i) with (S (Z.to_nat (i - 1))) by lia. reflexivity. }
  rewrite (Z1 _ _ (t + 1)) by lia. replace (t + 1 - 1) with t by lia. destruct (Z.eq_dec t 0) as [-> |N].
  - change (znth 0 (k :: places c L (k + 1)) 0) with k. pose proof (places_range c L (k + 1) (znth 0 (places c L (k + 1)) 0)) as X.
    enough (k + 1 <= znth 0 (places c L (k + 1)) 0) by lia. apply X. unfold znth. cbn. apply nth_In. pose proof (places_length c L (k + 1)) as Y. unfold cnt, zlen in *. lia.
  - rewrite Z1 by lia. specialize (IH (k + 1) (t - 1) ltac:(lia) ltac:(lia)). replace (t - 1 + 1) with t in IH by lia. exact IH.
Qed.

Lemma zsum_plus f g l : zsum (fun x => f x + g x) l = zsum f l + zsum g l.
Proof. induction l as [|x l IH]; [reflexivity|]. rewrite !zsum_cons, IH. lia. Qed.

Section Pairs.
  Variable n : Z.
  Hypothesis n0 : 0 <= n.
  Variable L : list (Z * Z).
  Hypothesis good : forall i j, In (i, j) L -> 0 <= i < n /\ 0 <= j < n /\ i <> j.

  (** Where column [c] of [M] begins *)
  Definition start (c : Z) : Z := zsum (fun d => cnt d L) (zrange 0 c).
  Lemma start_succ c : 0 <= c -> start (c + 1) = start c + cnt c L.
  Proof. intros H. unfold start. rewrite zrange_snoc by lia. rewrite zsum_app. cbn. lia. Qed.
  Lemma start_0 : start 0 = 0.
  Proof. reflexivity. Qed.
  Lemma start_mono c c' : 0 <= c <= c' -> start c <= start c'.
  Proof.
    intros H. unfold start. rewrite (zrange_app 0 c c') by lia. rewrite zsum_app.
    assert (0 <= zsum (fun d => cnt d L) (zrange c c')); [|lia]. apply zsum_nonneg. intros. apply cnt_nonneg.
  Qed.
  Lemma sum_indicator i : 0 <= i < n -> zsum (fun c => if i =? c then 1 else 0) (zrange 0 n) = 1.
  Proof.
    intros H. rewrite (zrange_app 0 i n) by lia. rewrite (zrange_cons i n) by lia. rewrite zsum_app, zsum_cons. rewrite Z.eqb_refl.
    rewrite (zsum_ext _ (fun _ => 0) (zrange 0 i)) by (intros x Hx; apply In_zrange in Hx; destruct (Z.eqb_spec i x); lia).
    rewrite (zsum_ext _ (fun _ => 0) (zrange (i + 1) n)) by (intros x Hx; apply In_zrange in Hx; destruct (Z.eqb_spec i x); lia).
    assert (Z0 : forall l, zsum (fun _ => 0) l = 0) by (induction l; cbn; auto). rewrite !Z0. lia.
  Qed.
  Lemma start_total : start n = 2 * zlen L.
  Proof.
    unfold start. revert good. induction L as [|(i, j) l IH]; intros G.
    - assert (Z0 : forall l, zsum (fun d => cnt d []) l = 0) by (induction l; cbn; auto). apply Z0.
    - rewrite zlen_cons. destruct (G i j (or_introl eq_refl)) as (Hi & Hj & N).
      rewrite (zsum_ext _ (fun c => cnt c l + ((if i =? c then 1 else 0) + (if j =? c then 1 else 0)))).
      + rewrite (zsum_plus (fun c => cnt c l)), (zsum_plus (fun c => if i =? c then 1 else 0)). rewrite IH by (intros; apply G; right; auto). rewrite (sum_indicator i Hi), (sum_indicator j Hj). lia.
      + intros c _. change ((i, j) :: l) with ([(i, j)] ++ l). rewrite cnt_app, cnt_one.
        destruct (Z.eqb_spec i c), (Z.eqb_spec j c); cbn [orb]; lia.
  Qed.

  (** The column pointers of [M], and [count] before [M] is filled *)
  Definition pointers : list Z := map start (zrange 0 (n + 1)).
  Definition starts : list Z := map start (zrange 0 n) ++ [0].
  Lemma znth_map_range f a b i : 0 <= i < b - a -> znth 0 (map f (zrange a b)) i = f (a + i).
  Proof.
    intros H. unfold znth. destruct (Z.ltb_spec i 0); [lia|]. unfold zrange. rewrite map_map.
    rewrite (nth_indep _ 0 (f (a + Z.of_nat 0))) by (rewrite map_length, seq_length; lia).
    rewrite (map_nth (fun x => f (a + Z.of_nat x))). rewrite seq_nth by lia. f_equal. lia.
  Qed.
  Lemma pointers_length : zlen pointers = n + 1.
  Proof. unfold pointers, zlen. rewrite map_length, zrange_length. lia. Qed.
  Lemma pointers_at c : 0 <= c <= n -> znth 0 pointers c = start c.
  Proof. intros H. unfold pointers. rewrite znth_map_range by lia. reflexivity. Qed.
  Lemma starts_length : zlen starts = n + 1.
  Proof. unfold starts, zlen. rewrite app_length, map_length, zrange_length. cbn. lia. Qed.
  Lemma starts_at c : 0 <= c < n -> znth 0 starts c = start c.
  Proof.
    intros H. unfold starts, znth. destruct (Z.ltb_spec c 0); [lia|]. rewrite app_nth1 by (rewrite map_length, zrange_length; lia).
    pose proof (znth_map_range start 0 n c ltac:(lia)) as X. unfold znth in X. destruct (Z.ltb_spec c 0); [lia|]. exact X.
  Qed.
  Lemma starts_end : znth 0 starts n = 0.
  Proof.
    unfold starts, znth. destruct (Z.ltb_spec n 0); [lia|]. rewrite app_nth2 by (rewrite map_length, zrange_length; lia).
    rewrite map_length, zrange_length. replace (Z.to_nat n - Z.to_nat (n - 0))%nat with 0%nat by lia. reflexivity.
  Qed.

  (** What is in [M] after the pairs of [P] *)
  Record filled (len : Z) (P : list (Z * Z)) (st : filling) : Prop := {
    fl_mem : zlen (fst (fst st)) = len;
    fl_count : zlen (snd (fst st)) = n + 1;
    fl_k : snd st = zlen P;
    fl_at : forall c, 0 <= c < n -> znth 0 (snd (fst st)) c = start c + cnt c P;
    fl_rows : forall c t, 0 <= c < n -> 0 <= t < cnt c P -> znth 0 (fst (fst st)) (start c + t) = znth 0 (places c P 0) t
  }.
  Lemma place_snoc c P i j t : 0 <= t < cnt c (P ++ [(i, j)]) ->
    znth 0 (places c (P ++ [(i, j)]) 0) t = if t =? cnt c P then zlen P else znth 0 (places c P 0) t.
  Proof.
    intros H. rewrite places_app. rewrite cnt_app, cnt_one in H. pose proof (places_length c P 0) as Lp. unfold zlen in Lp. pose proof (cnt_nonneg c P).
    unfold znth. destruct (Z.ltb_spec t 0); [lia|]. destruct (Z.eqb_spec t (cnt c P)) as [-> |N].
    - rewrite app_nth2 by lia. replace (Z.to_nat (cnt c P) - length (places c P 0))%nat with 0%nat by lia.
      cbn [places]. cbn [fst snd]. destruct ((i =? c) || (j =? c)); [cbn; lia|lia].
    - rewrite app_nth1; [reflexivity|]. destruct ((i =? c) || (j =? c)); lia.
  Qed.
  Lemma room c P ij post : L = P ++ ij :: post -> 0 <= c < n -> (fst ij =? c) || (snd ij =? c) = true ->
    start c + cnt c P < start (c + 1).
  Proof.
    intros E Hc Hij. rewrite start_succ by lia. replace (cnt c L) with (cnt c P + cnt c [ij] + cnt c post).
    - destruct ij as (i, j). rewrite cnt_one. cbn in Hij. rewrite Hij. pose proof (cnt_nonneg c post). lia.
    - rewrite E. change (ij :: post) with ([ij] ++ post). rewrite !cnt_app. lia.
  Qed.
  Lemma put_filled len P ij post st : L = P ++ ij :: post -> start n <= len -> filled len P st ->
    exists st', put_pair st ij = Done st' /\ filled len (P ++ [ij]) st'.
  Proof.
    intros E Hlen F. destruct ij as (i, j). destruct st as ((m & count) & k). destruct F as [F1 F2 F3 F4 F5]. cbn [fst snd] in *.
    destruct (good i j) as (Hi & Hj & N); [rewrite E, in_app_iff; cbn; auto|].
    pose proof (room i P (i, j) post E Hi ltac:(cbn; now rewrite Z.eqb_refl)) as Ri.
    pose proof (room j P (i, j) post E Hj ltac:(cbn; rewrite Z.eqb_refl; apply orb_true_r)) as Rj.
    pose proof (start_mono 0 i ltac:(lia)) as Mi. pose proof (start_mono 0 j ltac:(lia)) as Mj. rewrite start_0 in Mi, Mj.
    pose proof (start_mono (i + 1) n ltac:(lia)) as Mi'. pose proof (start_mono (j + 1) n ltac:(lia)) as Mj'.
    pose proof (cnt_nonneg i P). pose proof (cnt_nonneg j P).
    unfold put_pair. rewrite (zget_ok 0) by lia. cbn [obind]. rewrite F4 by lia. rewrite zset_ok by lia. cbn [obind]. rewrite zset_ok by lia. cbn [obind].
    rewrite (zget_ok 0) by (rewrite zlen_put; lia). cbn [obind]. rewrite znth_put_other by lia. rewrite F4 by lia.
    rewrite zset_ok by (rewrite zlen_put; lia). cbn [obind]. rewrite zset_ok by (rewrite zlen_put; lia). cbn [obind].
    eexists. split; [reflexivity|]. constructor; cbn [fst snd].
    - now rewrite !zlen_put.
    - now rewrite !zlen_put.
    - rewrite F3, zlen_app. reflexivity.
    - intros c Hc. rewrite cnt_app, cnt_one. rewrite znth_put by (rewrite zlen_put; lia). destruct (Z.eqb_spec j c) as [<-|Nj].
      + rewrite orb_true_r. lia.
      + rewrite znth_put by lia. destruct (Z.eqb_spec i c) as [<-|Ni]; cbn; [lia|]. rewrite F4 by lia. lia.
    - intros c t Hc Ht. rewrite place_snoc by exact Ht. rewrite cnt_app, cnt_one in Ht. pose proof (cnt_nonneg c P) as Cc.
      assert (Rc : start c + t < start (c + 1)).
      { destruct (Z.eqb_spec i c) as [<-|Ni]; [rewrite ?orb_true_l in Ht; cbn in Ht; lia|]. destruct (Z.eqb_spec j c) as [<-|Nj]; [cbn in Ht; lia|].
        cbn in Ht. rewrite start_succ by lia. assert (cnt c P <= cnt c L); [|lia]. rewrite E, cnt_app. pose proof (cnt_nonneg c ((i, j) :: post)). lia. }
      assert (Sep : forall d, 0 <= d < n -> d <> c -> start d + cnt d P < start (d + 1) -> start d + cnt d P <> start c + t).
      { intros d Hd Nd Rd X. assert (d < c \/ c < d) as [D|D] by lia.
        - pose proof (start_mono (d + 1) c ltac:(lia)). lia.
        - pose proof (start_mono (c + 1) d ltac:(lia)). pose proof (cnt_nonneg d P). lia. }
      rewrite znth_put by (rewrite zlen_put; lia). destruct (Z.eq_dec j c) as [<-|Nj].
      + destruct (Z.eqb_spec t (cnt j P)) as [-> |Nt].
        * rewrite Z.eqb_refl. exact F3.
        * destruct (Z.eqb_spec (start j + cnt j P) (start j + t)); [lia|]. rewrite Z.eqb_refl, orb_true_r in Ht.
          rewrite znth_put_other by (try lia; apply Sep; lia). apply F5; lia.
      + destruct (Z.eqb_spec (start j + cnt j P) (start c + t)) as [X|_]; [exfalso; apply (Sep j); lia|].
        destruct (Z.eq_dec i c) as [<-|Ni].
        * rewrite Z.eqb_refl in Ht. cbn in Ht. destruct (Z.eqb_spec t (cnt i P)) as [-> |Nt].
          -- rewrite znth_put_same by lia. exact F3.
          -- rewrite znth_put_other by lia. apply F5; lia.
        * destruct (Z.eqb_spec i c), (Z.eqb_spec j c); try lia. cbn in Ht. destruct (Z.eqb_spec t (cnt c P)); [lia|].
          rewrite znth_put_other by (try lia; apply Sep; lia). apply F5; lia.
  Qed.
  Lemma put_all len : start n <= len ->
    exists m count, ofold put_pair L (repeat 0 (Z.to_nat len), starts, 0) = Done (m, count, zlen L) /\ zlen m = len /\
      forall c t, 0 <= c < n -> 0 <= t < cnt c L -> znth 0 m (start c + t) = znth 0 (places c L 0) t.
  Proof.
    intros Hlen. pose proof (start_mono 0 n ltac:(lia)) as Mn. rewrite start_0 in Mn.
    destruct (ofold_ok_prefix (filled len) put_pair L) with (s := (repeat 0 (Z.to_nat len), starts, 0)) as (st & E & F).
    - intros P ij post st EL F. now apply (put_filled len P ij post st).
    - constructor; cbn [fst snd].
      + unfold zlen. rewrite repeat_length. lia.
      + apply starts_length.
      + reflexivity.
      + intros c Hc. rewrite starts_at by lia. cbn. lia.
      + intros c t Hc Ht. cbn in Ht. lia.
    - destruct st as ((m & count) & k). destruct F as [F1 F2 F3 F4 F5]. cbn [fst snd] in *. subst k. exists m, count. auto.
  Qed.
  (** [M] has sorted columns. *)
  Lemma filled_sorted len m : start n <= len -> zlen m = len ->
    (forall c t, 0 <= c < n -> 0 <= t < cnt c L -> znth 0 m (start c + t) = znth 0 (places c L 0) t) ->
    sorted_columns (zlen L) n m pointers.
  Proof.
    intros Hlen Lm H. pose proof (start_mono 0 n ltac:(lia)) as Mn. rewrite start_0 in Mn.
    assert (Pt : forall c, 0 <= c <= n -> element pointers c = start c).
    { intros c Hc. rewrite element_znth by lia. apply pointers_at. lia. }
    assert (Row : forall c i, 0 <= c < n -> start c <= i < start (c + 1) -> element m i = znth 0 (places c L 0) (i - start c)).
    { intros c i Hc Hi. pose proof (start_mono 0 c ltac:(lia)) as Mc. rewrite start_0 in Mc. rewrite element_znth by lia. rewrite start_succ in Hi by lia.
      rewrite <- (H c (i - start c)) by lia. f_equal. lia. }
    constructor.
    - split; [apply zlen_nonneg|exact n0].
    - apply pointers_length.
    - rewrite Pt by lia. reflexivity.
    - intros c Hc. rewrite !Pt by lia. apply start_mono. lia.
    - rewrite Pt by lia. unfold zlen in Lm. lia.
    - intros c i Hc Hi. rewrite !Pt in Hi by lia. rewrite (Row c i Hc Hi). rewrite start_succ in Hi by lia.
      pose proof (places_range c L 0 (znth 0 (places c L 0) (i - start c))) as X. cbn in X. apply X.
      unfold znth. destruct (Z.ltb_spec (i - start c) 0); [lia|]. apply nth_In. pose proof (places_length c L 0) as Y. unfold zlen in Y. lia.
    - intros c i Hc Hi Hi'. rewrite Pt in Hi by lia. rewrite Pt in Hi' by lia. rewrite (Row c i Hc) by lia. rewrite (Row c (i + 1) Hc) by lia.
      replace (i + 1 - start c) with (i - start c + 1) by lia. rewrite start_succ in Hi' by lia. apply places_sorted; lia.
  Qed.
End Pairs.

(** The pairs below the diagonal, column by column *)
Definition column_pairs (rows ptrs : list Z) (c : Z) : list (Z * Z) := map (fun i => (i, c)) (lower_part rows ptrs c).
Definition lower_pairs (rows ptrs : list Z) (n : Z) : list (Z * Z) := flat_map (column_pairs rows ptrs) (zrange 0 n).

Section Passes.
  Variable n : Z.
  Variables a p : list Z.
  Hypothesis CI : columns_in_range n a p.
  Notation pt := (element p).
  Notation before := (lower_pairs a p).

  Lemma in_n0 : 0 <= n.
  Proof. apply (ci_size _ _ _ CI). Qed.
  Lemma in_mono c c' : 0 <= c <= c' -> c' <= n -> pt c <= pt c'.
  Proof.
    intros H H'. assert (G : forall k, c + Z.of_nat k <= n -> pt c <= pt (c + Z.of_nat k)).
    { induction k as [|k IH]; intros L; [rewrite Z.add_0_r; lia|]. specialize (IH ltac:(lia)). pose proof (ci_up _ _ _ CI (c + Z.of_nat k) ltac:(lia)).
      replace (c + Z.of_nat (S k)) with (c + Z.of_nat k + 1) by lia. lia. }
    specialize (G (Z.to_nat (c' - c))). replace (c + Z.of_nat (Z.to_nat (c' - c))) with c' in G by lia. auto.
  Qed.
  Lemma in_zero : pt 0 = 0.
  Proof. apply (ci_first _ _ _ CI). Qed.
  Lemma in_len : zlen p = n + 1.
  Proof. apply (ci_length _ _ _ CI). Qed.
  Lemma in_pointer c : 0 <= c <= n -> zget p c = Done (pt c).
  Proof. intros H. pose proof in_len. rewrite (zget_ok 0) by lia. now rewrite element_znth by lia. Qed.
  Lemma in_entry c i : 0 <= c < n -> pt c <= i < pt (c + 1) -> zget a i = Done (element a i) /\ 0 <= element a i < n.
  Proof.
    intros Hc Hi. pose proof (in_mono 0 c ltac:(lia) ltac:(lia)) as M. rewrite in_zero in M. pose proof (in_mono (c + 1) n ltac:(lia) ltac:(lia)).
    pose proof (ci_last _ _ _ CI). split; [|now apply (ci_rows _ _ _ CI c)]. rewrite (zget_ok 0) by (unfold zlen; lia). now rewrite element_znth by lia.
  Qed.
  Lemma lower_pairs_succ c : 0 <= c -> before (c + 1) = before c ++ column_pairs a p c.
  Proof. intros H. unfold lower_pairs. rewrite zrange_snoc by lia. rewrite flat_map_app. cbn. now rewrite app_nil_r. Qed.
  Lemma lower_pairs_good i j : In (i, j) (before n) -> 0 <= i < n /\ 0 <= j < n /\ i <> j.
  Proof.
    unfold lower_pairs. intros H. apply in_flat_map in H. destruct H as (c & Hc & H). apply In_zrange in Hc. unfold column_pairs in H.
    apply in_map_iff in H. destruct H as (x & [= <- <-] & H). apply distinct_In in H. apply filter_In in H. destruct H as (H & L). apply Z.ltb_lt in L.
    unfold entries in H. apply in_map_iff in H. destruct H as (k & <- & Hk). apply In_zrange in Hk.
    pose proof (ci_rows _ _ _ CI c k Hc Hk). lia.
  Qed.

  (** The indices of column [c] before place [pp] *)
  Definition upto (c pp : Z) : list Z := map (element a) (zrange (pt c) pp).
  Lemma upto_succ c pp : pt c <= pp -> upto c (pp + 1) = upto c pp ++ [element a pp].
  Proof. intros H. unfold upto. rewrite zrange_snoc by lia. now rewrite map_app. Qed.
  Lemma upto_start c : upto c (pt c) = [].
  Proof. unfold upto. rewrite zrange_nil by lia. reflexivity. Qed.
  (** The pairs of these *)
  Definition pairs_upto (c pp : Z) : list (Z * Z) := map (fun i => (i, c)) (distinct (filter (fun i => c <? i) (upto c pp))).
  Lemma pairs_upto_succ c pp : pt c <= pp ->
    pairs_upto c (pp + 1) = pairs_upto c pp ++ (if (c <? element a pp) && negb (memb (element a pp) (upto c pp)) then [(element a pp, c)] else []).
  Proof.
    intros H. unfold pairs_upto. rewrite upto_succ by exact H. rewrite filter_app. cbn [filter]. set (x := element a pp).
    destruct (Z.ltb_spec c x) as [Hx|Hx]; cbn [andb]; [|now rewrite !app_nil_r]. unfold distinct. rewrite distinct_snoc. cbn [app]. rewrite map_app. f_equal.
    replace (memb x (filter (fun i => c <? i) (upto c pp))) with (memb x (upto c pp)); [destruct (memb x (upto c pp)); reflexivity|].
    apply eq_true_iff_eq. rewrite !memb_In, filter_In. assert ((c <? x) = true) by (apply Z.ltb_lt; lia). tauto.
  Qed.

  Definition repeats (c : Z) : Prop := ~ NoDup (entries a p c).
  (** [mark] in column [j] *)
  Record marked (j pp : Z) (mark : list Z) : Prop := {
    mk_len : zlen mark = n + 1;
    mk_at : forall i, 0 <= i < n -> znth 0 mark i <= j /\ (znth 0 mark i = j <-> In i (upto j pp))
  }.
  Definition marks_below (j : Z) (mark : list Z) : Prop := zlen mark = n + 1 /\ forall i, 0 <= i < n -> znth 0 mark i < j.
  Lemma marked_start j mark : marks_below j mark -> marked j (pt j) mark.
  Proof. intros (L & H). constructor; [exact L|]. intros i Hi. specialize (H i Hi). rewrite upto_start. cbn. lia. Qed.
  Lemma marked_end j mark : marked j (pt (j + 1)) mark -> marks_below (j + 1) mark.
  Proof. intros [L H]. split; [exact L|]. intros i Hi. specialize (H i Hi). lia. Qed.
  Lemma marked_set j pp mark : 0 <= j < n -> pt j <= pp < pt (j + 1) -> marked j pp mark -> marked j (pp + 1) (zput mark (element a pp) j).
  Proof.
    intros Hj Hpp [L H]. destruct (in_entry j pp Hj Hpp) as (_ & Hx). constructor; [now rewrite zlen_put|].
    intros i Hi. rewrite upto_succ by lia. rewrite in_app_iff. rewrite znth_put by lia. destruct (Z.eqb_spec (element a pp) i) as [E|N].
    - split; [lia|]. split; [|auto]. intros _. right. left. exact E.
    - destruct (H i Hi) as (H1 & H2). split; [exact H1|]. rewrite H2. cbn. tauto.
  Qed.
  Lemma marked_test j pp mark : 0 <= j < n -> pt j <= pp < pt (j + 1) -> marked j pp mark ->
    (znth 0 mark (element a pp) =? j) = memb (element a pp) (upto j pp).
  Proof.
    intros Hj Hpp [L H]. destruct (in_entry j pp Hj Hpp) as (_ & Hx). destruct (H _ Hx) as (_ & X).
    apply eq_true_iff_eq. rewrite Z.eqb_eq, memb_In. exact X.
  Qed.

  Record counted (j : Z) (s : counting) : Prop := {
    cd_count : zlen (ct_count s) = n + 1;
    cd_at : forall c, 0 <= c <= n -> znth 0 (ct_count s) c = cnt c (before j);
    cd_mark : marks_below j (ct_mark s);
    cd_plain : ct_jumbled s = false -> forall c, 0 <= c < j -> NoDup (entries a p c)
  }.
  Record counted_upto (j pp : Z) (s : counting) : Prop := {
    cu_count : zlen (ct_count s) = n + 1;
    cu_at : forall c, 0 <= c <= n -> znth 0 (ct_count s) c = cnt c (before j ++ pairs_upto j pp);
    cu_mark : marked j pp (ct_mark s);
    cu_plain : ct_jumbled s = false -> (forall c, 0 <= c < j -> NoDup (entries a p c)) /\ NoDup (upto j pp)
  }.
  Lemma NoDup_snoc {A} (l : list A) x : NoDup l -> ~ In x l -> NoDup (l ++ [x]).
  Proof.
    intros N H. apply (Permutation_NoDup (Permutation_cons_append l x)). constructor; auto.
  Qed.
  Lemma count_entry_ok j pp s : 0 <= j < n -> pt j <= pp < pt (j + 1) -> counted_upto j pp s ->
    exists s', count_entry n a j (inr s) pp = Done (inr s') /\ counted_upto j (pp + 1) s'.
  Proof.
    intros Hj Hpp [C1 C2 C3 C4]. destruct (in_entry j pp Hj Hpp) as (Ea & Hx). unfold count_entry. rewrite Ea. cbn [obind].
    pose proof (marked_test j pp _ Hj Hpp C3) as T. pose proof (mk_len _ _ _ C3) as Lm. set (x := element a pp) in *.
    destruct (Z.ltb_spec x 0), (Z.leb_spec n x); try lia. cbn [orb]. rewrite (zget_ok 0) by lia. cbn [obind].
    destruct (znth 0 (ct_mark s) x =? j) eqn:Em; symmetry in T.
    - rewrite andb_false_r. cbn [obind]. rewrite zset_ok by lia. cbn [obind]. rewrite orb_true_r. eexists. split; [reflexivity|]. constructor; cbn [ct_count ct_mark ct_jumbled].
      + exact C1.
      + intros c Hc. rewrite C2 by exact Hc. rewrite pairs_upto_succ by lia. fold x. rewrite T. rewrite andb_false_r. now rewrite app_nil_r.
      + now apply marked_set.
      + discriminate.
    - rewrite andb_true_r, orb_false_r. assert (Nx : ~ In x (upto j pp)) by (now apply memb_false).
      assert (Cnt : exists count', (if j <? x then let! c := zupdate (ct_count s) x (fun x => x + 1) in zupdate c j (fun x => x + 1) else Done (ct_count s)) = Done count' /\
        zlen count' = n + 1 /\ forall c, 0 <= c <= n -> znth 0 count' c = cnt c (before j ++ pairs_upto j (pp + 1))).
      { rewrite pairs_upto_succ by lia. fold x. rewrite T. rewrite andb_true_r. destruct (Z.ltb_spec j x) as [Hjx|Hjx].
        - rewrite (zupdate_ok 0) by lia. cbn [obind]. rewrite (zupdate_ok 0) by (rewrite zlen_put; lia). eexists. split; [reflexivity|]. split; [now rewrite !zlen_put|].
          intros c Hc. rewrite app_assoc, cnt_app, cnt_one, <- C2 by exact Hc. rewrite znth_put by (rewrite zlen_put; lia). destruct (Z.eqb_spec j c) as [<-|Nj].
          + rewrite znth_put_other by lia. rewrite orb_true_r. reflexivity.
          + rewrite znth_put by lia. destruct (Z.eqb_spec x c) as [<-|Ni]; cbn [orb]; lia.
        - exists (ct_count s). split; [reflexivity|]. split; [exact C1|]. intros c Hc. rewrite app_nil_r. now apply C2. }
      destruct Cnt as (count' & -> & K1 & K2). cbn [obind]. rewrite zset_ok by lia. cbn [obind]. eexists. split; [reflexivity|]. constructor; cbn [ct_count ct_mark ct_jumbled]; auto.
      + now apply marked_set.
      + destruct (x <=? ct_last s); [discriminate|]. intros J. destruct (C4 J) as (D1 & D2). split; [exact D1|].
        rewrite upto_succ by lia. apply NoDup_snoc; auto.
  Qed.
  Lemma count_column_ok j s : 0 <= j < n -> counted j s -> exists s', count_column n a p (inr s) j = Done (inr s') /\ counted (j + 1) s'.
  Proof.
    intros Hj [C1 C2 C3 C4]. unfold count_column. rewrite (in_pointer j) by lia. cbn [obind]. rewrite (in_pointer (j + 1)) by lia. cbn [obind].
    pose proof (ci_up _ _ _ CI j Hj) as Up. destruct (Z.ltb_spec (pt (j + 1) - pt j) 0); [lia|].
    destruct (zloop (fun pp st => exists s, st = inr s /\ counted_upto j pp s) (count_entry n a j) (pt j) (pt (j + 1))) with
      (s := inr (A := colamd_error) (Counting (ct_count s) (ct_mark s) (ct_jumbled s) (-1))) as (st & E & s' & -> & [K1 K2 K3 K4]).
    - exact Up.
    - intros pp st Hpp (t & -> & Ht). destruct (count_entry_ok j pp t Hj Hpp Ht) as (t' & E & Ht'). exists (inr t'). eauto.
    - eexists. split; [reflexivity|]. constructor; cbn [ct_count ct_mark ct_jumbled]; auto.
      + intros c Hc. unfold pairs_upto. rewrite upto_start. cbn. rewrite app_nil_r. auto.
      + now apply marked_start.
      + intros J. split; [auto|]. rewrite upto_start. constructor.
    - exists s'. split; [exact E|]. constructor; auto.
      + intros c Hc. rewrite K2 by exact Hc. now rewrite lower_pairs_succ by lia.
      + now apply marked_end.
      + intros J c Hc. destruct (K4 J) as (D1 & D2). destruct (Z.eq_dec c j) as [-> |N]; [exact D2|apply D1; lia].
  Qed.

  Lemma unmark mark : zlen mark = n + 1 -> exists mark', ofold (fun mark i => zset mark i (-1)) (zrange 0 n) mark = Done mark' /\ marks_below 0 mark'.
  Proof.
    intros L. pose proof in_n0. destruct (zloop (fun i m => zlen m = n + 1 /\ forall k, 0 <= k < i -> znth 0 m k = -1) (fun mark i => zset mark i (-1)) 0 n) with (s := mark) as (m & E & L' & H').
    - lia.
    - intros i m Hi (Lm & Hm). rewrite zset_ok by lia. eexists. split; [reflexivity|]. split; [now rewrite zlen_put|].
      intros k Hk. rewrite znth_put by lia. destruct (Z.eqb_spec i k); [reflexivity|]. apply Hm. lia.
    - split; [exact L|]. intros k Hk. lia.
    - exists m. split; [exact E|]. split; [exact L'|]. intros i Hi. rewrite H' by lia. lia.
  Qed.
  Lemma count_all mark : marks_below 0 mark ->
    exists s, ofold (count_column n a p) (zrange 0 n) (inr (Counting (repeat 0 (Z.to_nat (n + 1))) mark false (-1))) = Done (inr s) /\ counted n s.
  Proof.
    intros M. pose proof in_n0. destruct (zloop (fun j st => exists s, st = inr s /\ counted j s) (count_column n a p) 0 n) with
      (s := inr (A := colamd_error) (Counting (repeat 0 (Z.to_nat (n + 1))) mark false (-1))) as (st & E & s & -> & K).
    - lia.
    - intros j st Hj (t & -> & Ht). destruct (count_column_ok j t Hj Ht) as (t' & E & Ht'). exists (inr t'). eauto.
    - eexists. split; [reflexivity|]. constructor; cbn [ct_count ct_mark ct_jumbled]; auto.
      + unfold zlen. rewrite repeat_length. lia.
      + intros c Hc. rewrite znth_repeat. reflexivity.
      + intros _ c Hc. lia.
    - eauto.
  Qed.

  Notation L := (before n).
  Lemma cnt_end : cnt n L = 0.
  Proof.
    unfold cnt. enough (E : filter (fun ij => (fst ij =? n) || (snd ij =? n)) L = []) by (rewrite E; reflexivity).
    pose proof lower_pairs_good as G. revert G. generalize L. induction l as [|(i, j) l IH]; intros G; [reflexivity|]. cbn [filter fst snd].
    destruct (G i j (or_introl eq_refl)) as (Hi & Hj & _). destruct (Z.eqb_spec i n), (Z.eqb_spec j n); try lia. cbn [orb]. apply IH. intros; apply G; right; auto.
  Qed.
  Lemma pointers_of_ok count perm : zlen count = n + 1 -> (forall c, 0 <= c <= n -> znth 0 count c = cnt c L) -> zlen perm = n + 1 ->
    pointers_of n count perm = Done (pointers n L).
  Proof.
    intros Lc Hc Lp. pose proof in_n0. unfold pointers_of. rewrite zset_ok by lia. cbn [obind].
    destruct (zloop (fun j perm => zlen perm = n + 1 /\ forall c, 0 <= c < j -> znth 0 perm c = start L c)
      (fun perm j => let! x := zget perm (j - 1) in let! c := zget count (j - 1) in zset perm j (x + c)) 1 (n + 1)) with (s := zput perm 0 0) as (perm' & E & L' & H').
    - lia.
    - intros j q Hj (Lq & Hq). rewrite (zget_ok 0) by lia. cbn [obind]. rewrite (zget_ok 0) by lia. cbn [obind]. rewrite zset_ok by lia. eexists. split; [reflexivity|].
      split; [now rewrite zlen_put|]. intros c Hc'. rewrite znth_put by lia. destruct (Z.eqb_spec j c) as [<-|N]; [|apply Hq; lia].
      rewrite Hq by lia. rewrite Hc by lia. rewrite <- start_succ by lia. f_equal. lia.
    - split; [now rewrite zlen_put|]. intros c Hc'. replace c with 0 by lia. rewrite znth_put_same by lia. reflexivity.
    - rewrite E. f_equal. apply list_of_znth; [rewrite pointers_length by lia; lia|]. intros i Hi. rewrite pointers_at by lia. apply H'. lia.
  Qed.
  Lemma starts_of_ok count : zlen count = n + 1 -> (forall c, 0 <= c <= n -> znth 0 count c = cnt c L) ->
    starts_of n count (pointers n L) = Done (starts n L).
  Proof.
    intros Lc Hc. pose proof in_n0. unfold starts_of.
    destruct (zloop (fun j count => zlen count = n + 1 /\ znth 0 count n = 0 /\ forall c, 0 <= c < j -> znth 0 count c = start L c)
      (fun count j => let! x := zget (pointers n L) j in zset count j x) 0 n) with (s := count) as (count' & E & L' & H0 & H').
    - lia.
    - intros j q Hj (Lq & Hn & Hq). rewrite (zget_ok 0) by (rewrite pointers_length by lia; lia). cbn [obind]. rewrite pointers_at by lia. rewrite zset_ok by lia. eexists. split; [reflexivity|].
      split; [now rewrite zlen_put|]. split; [rewrite znth_put_other by lia; exact Hn|]. intros c Hc'. rewrite znth_put by lia. destruct (Z.eqb_spec j c) as [<-|N]; [reflexivity|apply Hq; lia].
    - split; [exact Lc|]. split; [rewrite Hc by lia; apply cnt_end|]. intros; lia.
    - rewrite E. f_equal. apply list_of_znth; [rewrite starts_length by lia; lia|]. intros i Hi. destruct (Z.eq_dec i n) as [-> |N].
      + rewrite starts_end by lia. exact H0.
      + rewrite starts_at by lia. apply H'. lia.
  Qed.

  (* ----- the filling ----- *)

  (** A run over the columns does to [put_pair] what the list of pairs does. *)
  Lemma fill_sorted_ok st st' : (forall c, 0 <= c < n -> NoDup (entries a p c)) ->
    ofold put_pair L st = Done st' -> fill_sorted n a p st = Done st'.
  Proof.
    intros ND. unfold fill_sorted. pose proof in_n0.
    assert (Col : forall j st, 0 <= j < n -> (let! start := zget p j in let! stop := zget p (j + 1) in
      ofold (fun st pp => let! i := zget a pp in if j <? i then put_pair st (i, j) else Done st) (zrange start stop) st) = ofold put_pair (column_pairs a p j) st).
    { intros j st0 Hj. rewrite (in_pointer j) by lia. cbn [obind]. rewrite (in_pointer (j + 1)) by lia. cbn [obind].
      unfold column_pairs, lower_part, distinct. rewrite distinct_id; [|apply NoDup_filter, ND; exact Hj|cbn; auto]. unfold entries.
      assert (G : forall l st, (forall pp, In pp l -> pt j <= pp < pt (j + 1)) ->
        ofold (fun st pp => let! i := zget a pp in if j <? i then put_pair st (i, j) else Done st) l st = ofold put_pair (map (fun i => (i, j)) (filter (fun i => j <? i) (map (element a) l))) st).
      { induction l as [|pp l IH]; intros s Hl; [reflexivity|]. cbn [ofold map filter]. destruct (in_entry j pp Hj) as (-> & _); [apply Hl; left; auto|]. cbn [obind].
        destruct (j <? element a pp); cbn [map ofold].
        - destruct (put_pair s (element a pp, j)); cbn [obind]; auto. apply IH. intros; apply Hl; right; auto.
        - cbn [obind]. apply IH. intros; apply Hl; right; auto. }
      apply G. intros pp Hpp. now apply In_zrange. }
    assert (G : forall l st, (forall j, In j l -> 0 <= j < n) ->
      ofold (fun st j => let! start := zget p j in let! stop := zget p (j + 1) in
        ofold (fun st pp => let! i := zget a pp in if j <? i then put_pair st (i, j) else Done st) (zrange start stop) st) l st = ofold put_pair (flat_map (column_pairs a p) l) st).
    { induction l as [|j l IH]; intros s Hl; [reflexivity|]. cbn [ofold flat_map]. rewrite ofold_app. rewrite Col by (apply Hl; left; auto).
      destruct (ofold put_pair (column_pairs a p j) s); cbn [obind]; auto. apply IH. intros; apply Hl; right; auto. }
    rewrite G; [auto|]. intros j Hj. now apply In_zrange.
  Qed.
  Lemma fill_jumbled_ok mark st st' : zlen mark = n + 1 -> ofold put_pair L st = Done st' -> fill_jumbled n a p mark st = Done st'.
  Proof.
    intros Lm. unfold fill_jumbled. pose proof in_n0. destruct (unmark mark Lm) as (m0 & -> & M0). cbn [obind]. intros Run.
    set (inner := fun j (sm : filling * list Z) pp => let '(st, mark) := sm in let! i := zget a pp in let! m := zget mark i in
       if (j <? i) && negb (m =? j) then let! st := put_pair st (i, j) in let! mark := zset mark i j in Done (st, mark) else Done (st, mark)).
    set (outer := fun (sm : filling * list Z) j => let! start := zget p j in let! stop := zget p (j + 1) in ofold (inner j) (zrange start stop) sm).
    assert (Pre : forall P Q s, L = P ++ Q -> ofold put_pair L st = Done s -> exists t, ofold put_pair P st = Done t /\ ofold put_pair Q t = Done s).
    { intros P Q s -> E. rewrite ofold_app in E. destruct (ofold put_pair P st) as [t| |]; try discriminate. eauto. }
    assert (Split : forall j, 0 <= j < n -> exists Q, L = (before j ++ column_pairs a p j) ++ Q).
    { intros j Hj. exists (flat_map (column_pairs a p) (zrange (j + 1) n)). rewrite <- lower_pairs_succ by lia. unfold lower_pairs. rewrite <- flat_map_app. now rewrite <- zrange_app by lia. }
    assert (Split2 : forall j pp, 0 <= j < n -> pt j <= pp <= pt (j + 1) -> exists Q, column_pairs a p j = pairs_upto j pp ++ Q).
    { intros j pp Hj Hpp. assert (G : forall k, pp + Z.of_nat k <= pt (j + 1) -> exists Q, pairs_upto j (pp + Z.of_nat k) = pairs_upto j pp ++ Q).
      { induction k as [|k IH]; intros Hk; [exists []; rewrite Z.add_0_r; now rewrite app_nil_r|]. destruct IH as (Q & E); [lia|].
        replace (pp + Z.of_nat (S k)) with (pp + Z.of_nat k + 1) by lia. rewrite pairs_upto_succ by lia. rewrite E. rewrite <- app_assoc. eauto. }
      specialize (G (Z.to_nat (pt (j + 1) - pp))). replace (pp + Z.of_nat (Z.to_nat (pt (j + 1) - pp))) with (pt (j + 1)) in G by lia. apply G. lia. }
    destruct (zloop (fun j (sm : filling * list Z) => ofold put_pair (before j) st = Done (fst sm) /\ marks_below j (snd sm)) outer 0 n) with (s := (st, m0)) as (sm & E & E1 & E2).
    - lia.
    - intros j (s & mk) Hj (Es & (Lk & Hk)). cbn [fst snd] in *. unfold outer. rewrite (in_pointer j) by lia. cbn [obind]. rewrite (in_pointer (j + 1)) by lia. cbn [obind].
      pose proof (ci_up _ _ _ CI j Hj) as Up.
      destruct (zloop (fun pp (sm : filling * list Z) => ofold put_pair (before j ++ pairs_upto j pp) st = Done (fst sm) /\ zlen (snd sm) = n + 1 /\
         forall i, 0 <= i < n -> znth 0 (snd sm) i <= j /\ (j < i -> (znth 0 (snd sm) i = j <-> In i (upto j pp)))) (inner j) (pt j) (pt (j + 1))) with (s := (s, mk)) as (sm & E & E1 & E2 & E3).
      + exact Up.
      + intros pp (t & mt) Hpp (Et & Lt & Ht). cbn [fst snd] in *. unfold inner. destruct (in_entry j pp Hj Hpp) as (-> & Hx). cbn [obind]. rewrite (zget_ok 0) by lia. cbn [obind].
        pose proof (pairs_upto_succ j pp ltac:(lia)) as Ps. destruct (Ht (element a pp) Hx) as (B1 & B2). set (x := element a pp) in *.
        destruct (Z.ltb_spec j x) as [Hjx|Hjx]; cbn [andb] in *.
        * destruct (Z.eqb_spec (znth 0 mt x) j) as [Ex|Nx]; cbn [negb].
          -- eexists. split; [reflexivity|]. cbn [fst snd]. rewrite (proj2 (memb_In x (upto j pp))) in Ps by tauto. cbn in Ps. rewrite app_nil_r in Ps. rewrite Ps.
             split; [exact Et|]. split; [exact Lt|]. intros i Hi. destruct (Ht i Hi) as (B3 & B4). split; [exact B3|]. intros Hji. rewrite (B4 Hji). rewrite upto_succ by lia. fold x.
             rewrite in_app_iff. cbn. split; [auto|]. intros [Y|[<- |[]]]; [exact Y|tauto].
          -- rewrite (proj2 (memb_false x (upto j pp))) in Ps by tauto. cbn [negb] in Ps.
             destruct (Split j Hj) as (Q & EQ). destruct (Split2 j (pp + 1) Hj ltac:(lia)) as (Q2 & EQ2).
             destruct (Pre ((before j ++ pairs_upto j pp) ++ [(x, j)]) (Q2 ++ Q) st') as (t' & Et' & _).
             { rewrite EQ, EQ2, Ps. now rewrite <- !app_assoc. }
             { exact Run. }
             pose proof Et' as Et2. rewrite ofold_app in Et'. rewrite Et in Et'. cbn [obind ofold] in Et'. destruct (put_pair t (x, j)) as [t2| |]; try discriminate. cbn [obind] in *. injection Et' as ->.
             rewrite zset_ok by lia. cbn [obind]. eexists. split; [reflexivity|]. cbn [fst snd]. rewrite Ps, app_assoc. split; [exact Et2|]. split; [now rewrite zlen_put|].
             intros i Hi. rewrite upto_succ by lia. fold x. rewrite in_app_iff. rewrite znth_put by lia. destruct (Z.eqb_spec x i) as [<-|N].
             ++ split; [lia|]. intros _. split; [|auto]. intros _. right. left. reflexivity.
             ++ destruct (Ht i Hi) as (B3 & B4). split; [exact B3|]. intros Hji. rewrite (B4 Hji). cbn. tauto.
        * eexists. split; [reflexivity|]. cbn [fst snd]. rewrite app_nil_r in Ps. rewrite Ps. split; [exact Et|]. split; [exact Lt|].
          intros i Hi. destruct (Ht i Hi) as (B3 & B4). split; [exact B3|]. intros Hji. rewrite (B4 Hji). rewrite upto_succ by lia. fold x. rewrite in_app_iff. cbn.
          split; [auto|]. intros [Y|[Y|[]]]; [exact Y|lia].
      + cbn [fst snd]. unfold pairs_upto. rewrite upto_start. cbn [filter distinct distinct_from map]. rewrite app_nil_r. split; [exact Es|]. split; [exact Lk|].
        intros i Hi. specialize (Hk i Hi). split; [lia|]. intros _. split; [lia|intros []].
      + exists sm. split; [exact E|]. rewrite lower_pairs_succ by lia. split; [exact E1|]. split; [exact E2|]. intros i Hi. specialize (E3 i Hi). lia.
    - cbn [fst snd]. split; [reflexivity|exact M0].
    - rewrite Run in E1. injection E1 as ->. change (obind (ofold outer (zrange 0 n) (st, m0)) (fun '(st0, _) => Done st0) = Done (fst sm)). rewrite E. cbn [obind]. destruct sm. reflexivity.
  Qed.
End Passes.

Lemma distinct_length l : forall seen, zlen (distinct_from seen l) <= zlen l.
Proof.
  induction l as [|x l IH]; intros seen; cbn [distinct_from]; [lia|]. destruct (existsb (Z.eqb x) seen); rewrite ?zlen_cons.
  - specialize (IH seen). lia.
  - specialize (IH (x :: seen)). lia.
Qed.
Lemma filter_length_le f (l : list Z) : zlen (filter f l) <= zlen l.
Proof. induction l as [|x l IH]; cbn [filter]; [lia|]. destruct (f x); rewrite ?zlen_cons; lia. Qed.
Lemma lower_pairs_length n a p : columns_in_range n a p -> zlen (lower_pairs a p n) <= element p n.
Proof.
  intros CI. pose proof (ci_size _ _ _ CI) as N0.
  assert (G : forall k, Z.of_nat k <= n -> zlen (lower_pairs a p (Z.of_nat k)) <= element p (Z.of_nat k)).
  { induction k as [|k IH]; intros Hk; [cbn; rewrite (ci_first _ _ _ CI); lia|]. specialize (IH ltac:(lia)).
    replace (Z.of_nat (S k)) with (Z.of_nat k + 1) by lia. unfold lower_pairs in *. rewrite zrange_snoc by lia. rewrite flat_map_app, zlen_app. cbn [flat_map]. rewrite app_nil_r.
    assert (zlen (column_pairs a p (Z.of_nat k)) <= element p (Z.of_nat k + 1) - element p (Z.of_nat k)); [|lia].
    unfold column_pairs, zlen. rewrite map_length. fold (zlen (lower_part a p (Z.of_nat k))). unfold lower_part, distinct.
    etransitivity; [apply distinct_length|]. etransitivity; [apply filter_length_le|]. unfold entries, zlen. rewrite map_length, zrange_length.
    pose proof (ci_up _ _ _ CI (Z.of_nat k) ltac:(lia)). lia. }
  specialize (G (Z.to_nat n)). rewrite Z2Nat.id in G by lia. apply G. lia.
Qed.

(** What [symamd] does with the pairs *)
Definition order_pairs (n : Z) (L : list (Z * Z)) (m : list Z) (o : colamd_options) : outcome (colamd_error + list Z * statistics) :=
  let! r := colamd_core (zlen L) n m (pointers n L) (ColamdOptions (Num.lit (-1)) (dense_row_control o) (aggressive_row_absorption o)) in
  match r with
  | inl e => Done (inl e)
  | inr (perm, st) => Done (inr (perm, Statistics (st_jumble st) (st_ignored_columns st) (st_ignored_columns st) (st_garbage_collections st)))
  end.
Lemma symamd_core_pairs n a p perm o len : columns_in_range n a p -> zlen perm = n + 1 ->
  colamd_recommended (2 * zlen (lower_pairs a p n)) (zlen (lower_pairs a p n)) n = Some len -> 2 * zlen (lower_pairs a p n) <= len ->
  exists m count, ofold put_pair (lower_pairs a p n) (repeat 0 (Z.to_nat len), starts n (lower_pairs a p n), 0) = Done (m, count, zlen (lower_pairs a p n)) /\
    zlen m = len /\ sorted_columns (zlen (lower_pairs a p n)) n m (pointers n (lower_pairs a p n)) /\
    symamd_core n a p perm o = order_pairs n (lower_pairs a p n) m o.
Proof.
  intros CI Lp Rec Hlen. pose proof (ci_size _ _ _ CI) as N0. set (L := lower_pairs a p n) in *.
  assert (Good : forall i j, In (i, j) L -> 0 <= i < n /\ 0 <= j < n /\ i <> j) by (intros i j; apply (lower_pairs_good n a p CI)).
  pose proof (start_total n L Good) as Tot.
  destruct (put_all n N0 L Good len ltac:(lia)) as (m & count & Run & Lm & Hm). exists m, count. split; [exact Run|]. split; [exact Lm|].
  split; [now apply (filled_sorted n N0 L len m ltac:(lia) Lm)|].
  unfold symamd_core. destruct (Z.ltb_spec n 0); [lia|]. rewrite (in_pointer n a p CI n) by lia. cbn [obind].
  pose proof (in_mono n a p CI 0 n ltac:(lia) ltac:(lia)) as Mn. rewrite (in_zero n a p CI) in Mn. destruct (Z.ltb_spec (element p n) 0); [lia|].
  rewrite (in_pointer n a p CI 0) by lia. cbn [obind]. rewrite (in_zero n a p CI). change (negb (0 =? 0)) with false. cbv iota zeta.
  destruct (unmark n a p CI (repeat 0 (Z.to_nat (n + 1)))) as (mark & -> & Hmark); [unfold zlen; rewrite repeat_length; lia|]. cbn [obind].
  destruct (count_all n a p CI mark Hmark) as (s & -> & [C1 C2 C3 C4]). cbn [obind]. fold L in C2.
  pose proof (pointers_of_ok n a p CI _ _ C1 C2 Lp) as E1. pose proof (starts_of_ok n a p CI _ C1 C2) as E2. fold L in E1, E2. rewrite E1. cbn [obind]. rewrite E2. cbn [obind].
  rewrite (zget_ok 0) by (rewrite pointers_length by lia; lia). cbn [obind]. rewrite pointers_at by lia. rewrite Tot.
  replace (2 * zlen L / 2) with (zlen L) by (rewrite Z.mul_comm, Z.div_mul; lia). rewrite Rec. cbn [ounwrap obind].
  assert (E : (if ct_jumbled s then fill_jumbled n a p (ct_mark s) (repeat 0 (Z.to_nat len), starts n L, 0) else fill_sorted n a p (repeat 0 (Z.to_nat len), starts n L, 0)) = Done (m, count, zlen L)).
  { destruct (ct_jumbled s) eqn:J.
    - apply (fill_jumbled_ok n a p CI); [apply (proj1 C3)|exact Run].
    - apply (fill_sorted_ok n a p CI); [apply C4; reflexivity|exact Run]. }
  rewrite E. cbn [obind]. reflexivity.
Qed.
