(** The elimination tree of a sparse matrix, its post-order, and the first column
    of every row *)
From Coq Require Import List Arith Bool Lia Relations Permutation.
From Verif Require Import Outcome Lib ModelSparse Spec_Sparse ModelForest Spec_Forest Proofs_Forest
  Proofs_Sparse Proofs_Format ModelCholesky Spec_Elimination Proofs_Elimination Proofs_Columns.
Import ListNotations.
Local Open Scope nat_scope.

Lemma structural_bound s i j : well_formed s -> structural s i j -> i < s_nrows s /\ j < s_ncols s.
Proof.
  intros W (k & a & b & (H1 & H2) & Ha & Hb & Hk). split; [eapply wf_bound; eassumption|].
  apply nth_error_lt in H2. pose proof (wf_count _ W). lia.
Qed.

Lemma NoDup_right {A} (l k : list A) : NoDup (l ++ k) -> NoDup k.
Proof. induction l as [|x l IH]; [auto|]. cbn. inversion 1; auto. Qed.
Lemma NoDup_left {A} (l k : list A) : NoDup (l ++ k) -> NoDup l.
Proof.
  induction l as [|x l IH]; [constructor|]. cbn. inversion 1; subst. constructor; [|auto].
  intros Hx. apply H2. apply in_or_app. left; exact Hx.
Qed.

Section Tree.
Context (s : structure) (W : well_formed s).
Let n := s_ncols s.
Let m := s_nrows s.
Context (ps : list (option nat)) (Ln : length ps = n)
  (HP : forall k o, nth_error ps k = Some o -> elimination_parent (linked_product s) n k o).

Lemma tree_forest : forest ps.
Proof. exact (elimination_forest _ _ ps Ln HP). Qed.

Lemma parent_gt u p : parent ps u p -> u < p < n.
Proof. intros H. destruct (HP _ _ H) as (H1 & H2 & _). lia. Qed.

Lemma below_le u v : below_node ps u v -> u <= v.
Proof. induction 1 as [|u p v Hp _ IH]; [lia|]. apply parent_gt in Hp. lia. Qed.

Lemma below_bound u v : below_node ps u v -> u < n -> v < n.
Proof. rewrite <- Ln. apply below_range. exact tree_forest. Qed.

Lemma below_eq u v : below_node ps u v -> below_node ps v u -> u = v.
Proof. intros H1 H2. apply below_le in H1. apply below_le in H2. lia. Qed.

Lemma below_order x u v : below_node ps x u -> below_node ps x v -> u <= v -> below_node ps u v.
Proof.
  intros H1 H2 Hle. destruct (below_compare _ _ _ H1 _ H2) as [H|H]; [exact H|].
  pose proof (below_le _ _ H). replace v with u by lia. constructor.
Qed.

Lemma below_up u v : below_node ps u v -> u <> v -> exists p, parent ps u p /\ below_node ps p v.
Proof. inversion 1; subst; [congruence|]. eauto. Qed.

(** Columns connected through columns up to [v] are below [v]. *)
Lemma connected_below u v : u <= v -> v < n -> connected (linked_product s) v u v -> below_node ps u v.
Proof.
  remember (v - u) as d eqn:Ed. revert u Ed. induction d as [d IH] using lt_wf_ind. intros u Ed Huv Hv C.
  destruct (Nat.eq_dec u v) as [->|N]; [constructor|].
  destruct (nth_error_ex ps u) as [o Ho]; [lia|]. pose proof (HP _ _ Ho) as Hp.
  destruct o as [p|]; cbn [elimination_parent] in Hp.
  - destruct Hp as (P1 & P2 & P3 & P4).
    assert (p <= v). { destruct (Nat.le_gt_cases p v); [assumption|]. exfalso. apply (P4 v); [lia|lia|exact C]. }
    eapply below_step; [exact Ho|]. apply (IH (v - p)); [lia|reflexivity|assumption|assumption|].
    eapply rst_trans; [|exact C]. apply rst_sym. eapply connected_mono; [|exact P3]. assumption.
  - exfalso. apply (Hp v); [lia|exact Hv|exact C].
Qed.

(** The columns of a row are on one path. *)
Lemma row_chain i c d : structural s i c -> structural s i d -> c <= d -> below_node ps c d.
Proof.
  intros Hc Hd Hle. apply connected_below; [exact Hle|apply (structural_bound _ _ _ W Hd)|].
  apply rst_step. split; [exists i; auto|lia].
Qed.

(** A column is joined to its parent by a row. *)
Lemma parent_row k j : parent ps k j -> exists i c, structural s i j /\ structural s i c /\ below_node ps c k.
Proof.
  intros Hp. destruct (HP _ _ Hp) as (H1 & H2 & H3 & H4).
  destruct (component_link _ n ps Ln k j H1 H3 H4) as (x & Cx & L).
  assert (Hx : x <= k) by (apply (connected_bound _ k x k Cx); lia).
  assert (B : below_node ps x k) by (apply connected_below; [exact Hx|lia|exact Cx]).
  destruct L as [(i & L1 & L2)|(i & L1 & L2)]; exists i, x; auto.
Qed.

(** Whether [u] is below [v] *)
Fixpoint reaches (fuel u v : nat) : bool :=
  (u =? v) || match fuel with
              | O => false
              | S fuel => match nth_error ps u with Some (Some p) => reaches fuel p v | _ => false end
              end.
Definition belowb (u v : nat) : bool := reaches n u v.

Lemma reaches_sound fuel u v : reaches fuel u v = true -> below_node ps u v.
Proof.
  revert u. induction fuel as [|fuel IH]; intros u; cbn [reaches]; rewrite orb_true_iff, Nat.eqb_eq.
  - intros [->|]; [constructor|discriminate].
  - intros [->|H]; [constructor|]. destruct (nth_error ps u) as [[p|]|] eqn:E; try discriminate.
    eapply below_step; [exact E|]. apply IH. exact H.
Qed.

Lemma reaches_complete u v : below_node ps u v -> forall fuel, n <= fuel + u -> reaches fuel u v = true.
Proof.
  induction 1 as [v|u p v Hp _ IH]; intros fuel Hf.
  - destruct fuel; cbn [reaches]; rewrite Nat.eqb_refl; reflexivity.
  - pose proof (parent_gt _ _ Hp). destruct fuel as [|fuel]; [lia|]. cbn [reaches]. unfold parent in Hp. rewrite Hp.
    rewrite IH by lia. apply orb_true_r.
Qed.

Lemma belowb_spec u v : belowb u v = true <-> below_node ps u v.
Proof. split; [apply reaches_sound|]. intros H. apply reaches_complete; [exact H|lia]. Qed.

(** The subtree of [v] *)
Definition subtree (v : nat) : list nat := filter (fun u => belowb u v) (seq 0 n).

Lemma subtree_In u v : v < n -> In u (subtree v) <-> below_node ps u v.
Proof.
  intros Hv. unfold subtree. rewrite filter_In, in_seq, belowb_spec. split; [tauto|].
  intros H. split; [|exact H]. pose proof (below_le _ _ H). lia.
Qed.

Lemma subtree_NoDup v : NoDup (subtree v).
Proof. apply NoDup_filter, seq_NoDup. Qed.

(** [f] is the first column of row [i]: the one all its columns are above. *)
Definition first_of (i f : nat) : Prop := structural s i f /\ forall c, structural s i c -> below_node ps f c.

Lemma first_unique i f g : first_of i f -> first_of i g -> f = g.
Proof. intros [H1 H2] [H3 H4]. apply below_eq; auto. Qed.

Lemma first_bound i f : first_of i f -> i < m /\ f < n.
Proof. intros [H _]. apply (structural_bound _ _ _ W H). Qed.

(** [u] has an entry in a row with first column [f]. *)
Definition leaf (f u : nat) : Prop := f <> u /\ exists i, first_of i f /\ structural s i u.

Lemma leaf_below f u : leaf f u -> below_node ps f u.
Proof. intros (_ & i & H1 & H2). apply H1. exact H2. Qed.

Lemma leaf_bound f u : leaf f u -> f < n /\ u < n.
Proof. intros (_ & i & H1 & H2). split; [apply (first_bound _ _ H1)|apply (structural_bound _ _ _ W H2)]. Qed.

(* ----- the post-order ----- *)

Context (post : list nat) (PO : is_post_order ps post).

Lemma post_length : length post = n.
Proof. rewrite (Permutation_length (po_nodes _ _ PO)), seq_length. exact Ln. Qed.

Lemma post_NoDup : NoDup post.
Proof. eapply Permutation_NoDup; [apply Permutation_sym, (po_nodes _ _ PO)|apply seq_NoDup]. Qed.

Lemma post_In v : In v post <-> v < n.
Proof.
  rewrite <- Ln. split; intros H.
  - apply (Permutation_in _ (po_nodes _ _ PO)), in_seq in H. lia.
  - apply (Permutation_in _ (Permutation_sym (po_nodes _ _ PO))), in_seq. lia.
Qed.

Lemma post_at_bound p v : nth_error post p = Some v -> p < n /\ v < n.
Proof.
  intros H. split; [rewrite <- post_length; eapply nth_error_lt; exact H|].
  apply post_In. eapply nth_error_In. exact H.
Qed.

Lemma post_at_unique p q v : nth_error post p = Some v -> nth_error post q = Some v -> p = q.
Proof.
  intros H1 H2. apply (NoDup_nth_error post); [apply post_NoDup|eapply nth_error_lt; exact H1|congruence].
Qed.

(** cholesky.rs 160-163 gives the places. *)
Lemma places_ok : exists places, places_of n post = Done places /\ length places = n /\
  forall v p, nth_error places v = Some p <-> nth_error post p = Some v.
Proof.
  unfold places_of.
  destruct (ofold_ok_prefix (fun pre (places : list nat) => length places = n /\
    forall p v, p < length pre -> nth_error post p = Some v -> nth_error places v = Some p)
    (fun places '(place, col) => oset places col place) (enumerate post)) with (s := repeat 0 n) as (places & E & L & H).
  - intros pre [place col] suf places El (L & H). destruct (enumerate_at _ _ _ _ El) as (E1 & E2 & _ & _).
    cbn [fst snd] in E1, E2. subst place. destruct (post_at_bound _ _ E2) as [_ Hc].
    rewrite oset_ok by lia. eexists; split; [reflexivity|]. rewrite lset_length. split; [exact L|].
    rewrite app_length. cbn [length]. intros p v Hp Hv. rewrite nth_error_lset.
    destruct (Nat.ltb_spec col (length places)); [|lia].
    destruct (Nat.eqb_spec col v) as [<-|N].
    + f_equal. apply (post_at_unique _ _ _ E2 Hv).
    + apply H; [|exact Hv]. destruct (Nat.eq_dec p (length pre)) as [->|]; [congruence|lia].
  - split; [apply repeat_length|]. cbn [length]. intros; lia.
  - exists places. split; [exact E|]. split; [exact L|]. rewrite enumerate_length in H.
    intros v p. split; intros Hv.
    + assert (Hvn : In v post) by (apply post_In; rewrite <- L; eapply nth_error_lt; exact Hv).
      apply In_nth_error in Hvn. destruct Hvn as [q Hq].
      assert (nth_error places v = Some q) by (apply H; [eapply nth_error_lt; exact Hq|exact Hq]). congruence.
    + apply H; [eapply nth_error_lt; exact Hv|exact Hv].
Qed.

Context (places : list nat) (Lp : length places = n)
  (Hpl : forall v p, nth_error places v = Some p <-> nth_error post p = Some v).

Definition pl (v : nat) : nat := nth v places 0.

Lemma pl_at v : v < n -> nth_error post (pl v) = Some v.
Proof. intros H. apply Hpl. unfold pl. apply nth_error_nth'. lia. Qed.

Lemma pl_get v : v < n -> nth_error places v = Some (pl v).
Proof. intros H. apply Hpl. apply pl_at. exact H. Qed.

Lemma pl_eq p v : nth_error post p = Some v -> p = pl v.
Proof. intros H. apply (post_at_unique p (pl v) v H). apply pl_at. apply (post_at_bound _ _ H). Qed.

Lemma pl_bound v : v < n -> pl v < n.
Proof. intros H. apply (post_at_bound _ v). apply pl_at. exact H. Qed.

Lemma pl_inj u v : u < n -> v < n -> pl u = pl v -> u = v.
Proof. intros Hu Hv E. pose proof (pl_at u Hu). pose proof (pl_at v Hv). congruence. Qed.

(** The first place of a subtree *)
Definition fp (v : nat) : nat := pl v + 1 - length (subtree v).

Lemma subtree_interval v : v < n -> length (subtree v) <= pl v + 1 /\
  forall u, u < n -> below_node ps u v <-> fp v <= pl u <= pl v.
Proof.
  intros Hv. destruct (po_subtrees _ _ PO v) as (bf & sub & af & E & Hs); [lia|].
  assert (Epl : pl v = length bf + length sub).
  { symmetry. apply pl_eq. rewrite E, nth_error_app2, nth_error_app2 by lia.
    replace (length bf + length sub - length bf - length sub) with 0 by lia. reflexivity. }
  assert (ND : NoDup (sub ++ [v])).
  { pose proof post_NoDup as ND. rewrite E in ND. apply NoDup_right in ND. rewrite app_assoc in ND.
    apply NoDup_left in ND. exact ND. }
  assert (Esz : length (subtree v) = length sub + 1).
  { transitivity (length (sub ++ [v])); [|rewrite app_length; reflexivity]. apply Nat.le_antisymm.
    - apply NoDup_incl_length; [apply subtree_NoDup|]. intros u Hu. apply Hs. apply subtree_In; assumption.
    - apply NoDup_incl_length; [exact ND|]. intros u Hu. apply subtree_In; [assumption|]. apply Hs. exact Hu. }
  assert (Efp : fp v = length bf) by (unfold fp; lia).
  split; [lia|]. intros u Hu. rewrite <- Hs, Efp, Epl. split.
  - intros Hi. apply In_nth_error in Hi. destruct Hi as [q Hq].
    pose proof (nth_error_lt _ _ _ Hq) as Lq. rewrite app_length in Lq. cbn [length] in Lq.
    assert (H : nth_error post (length bf + q) = Some u).
    { rewrite E, nth_error_app2 by lia. replace (length bf + q - length bf) with q by lia.
      rewrite app_assoc, nth_error_app1; [exact Hq|rewrite app_length; cbn [length]; lia]. }
    rewrite <- (pl_eq _ _ H). lia.
  - intros Hi. pose proof (pl_at u Hu) as H. rewrite E in H. rewrite nth_error_app2 in H by lia.
    rewrite app_assoc, nth_error_app1 in H by (rewrite app_length; cbn [length]; lia).
    eapply nth_error_In. exact H.
Qed.

Lemma interval u v : u < n -> v < n -> below_node ps u v <-> fp v <= pl u <= pl v.
Proof. intros Hu Hv. apply subtree_interval; assumption. Qed.

Lemma below_place u v : below_node ps u v -> v < n -> pl u <= pl v.
Proof.
  intros H Hv. pose proof (below_le _ _ H). apply (interval u v) in H; lia.
Qed.

Lemma below_place_lt u v : below_node ps u v -> v < n -> u <> v -> pl u < pl v.
Proof.
  intros H Hv N. pose proof (below_place _ _ H Hv). pose proof (below_le _ _ H).
  assert (pl u <> pl v) by (intros E; apply N; apply pl_inj; [lia|lia|exact E]). lia.
Qed.

(** In the first subtree that reaches as far as [w], between [x] and [y] *)
Lemma interval_between x y v w : x < n -> y < n -> w < n -> v < n -> below_node ps x v -> pl x <= pl w -> pl w <= pl v ->
  below_node ps w v.
Proof.
  intros Hx Hy Hw Hv H H1 H2. apply interval; [assumption|assumption|]. apply (interval x v) in H; [|assumption|assumption]. lia.
Qed.

(* ----- the sizes of the subtrees ----- *)

Lemma NoDup_flat_map (f : nat -> list nat) l : NoDup l -> (forall x, NoDup (f x)) ->
  (forall x y z, In x l -> In y l -> In z (f x) -> In z (f y) -> x = y) -> NoDup (flat_map f l).
Proof.
  induction 1 as [|x l Hx _ IH]; intros Hf Hd; [constructor|]. cbn [flat_map]. apply NoDup_app_intro.
  - apply Hf.
  - apply IH; [exact Hf|]. intros; eapply Hd; eauto using in_cons.
  - intros z Hz Hz'. apply in_flat_map in Hz'. destruct Hz' as (y & Hy & Hzy).
    assert (x = y) by (eapply Hd; eauto using in_cons, in_eq). subst y. contradiction.
Qed.

Lemma flat_map_length (f : nat -> list nat) l : length (flat_map f l) = list_sum (map (fun x => length (f x)) l).
Proof. induction l as [|x l IH]; [reflexivity|]. cbn. rewrite app_length, IH. reflexivity. Qed.

Lemma subtree_size v l : v < n -> NoDup l -> (forall c, In c l <-> parent ps c v) ->
  length (subtree v) = 1 + list_sum (map (fun c => length (subtree c)) l).
Proof.
  intros Hv Nl Hl. rewrite <- flat_map_length.
  change (1 + length (flat_map subtree l)) with (length (v :: flat_map subtree l)).
  apply Permutation_length. apply NoDup_Permutation.
  - apply subtree_NoDup.
  - constructor.
    + intros H. apply in_flat_map in H. destruct H as (c & Hc & H). apply Hl in Hc. apply parent_gt in Hc.
      apply subtree_In in H; [|lia]. apply below_le in H. lia.
    + apply NoDup_flat_map; [exact Nl|intros; apply subtree_NoDup|]. intros c d u Hc Hd H1 H2.
      apply Hl in Hc. apply Hl in Hd. pose proof (parent_gt _ _ Hc). pose proof (parent_gt _ _ Hd).
      apply subtree_In in H1; [|lia]. apply subtree_In in H2; [|lia].
      destruct (Nat.le_gt_cases c d) as [L|L].
      * destruct (Nat.eq_dec c d) as [|N]; [assumption|]. pose proof (below_order _ _ _ H1 H2 L) as B.
        destruct (below_up _ _ B N) as (p & Pp & Bp). rewrite (parent_fun _ _ _ _ Hc Pp) in H. apply below_le in Bp.
        rewrite (parent_fun _ _ _ _ Hc Pp) in H0. lia.
      * assert (N : d <> c) by lia. assert (L' : d <= c) by lia. pose proof (below_order _ _ _ H2 H1 L') as B.
        destruct (below_up _ _ B N) as (p & Pp & Bp). rewrite (parent_fun _ _ _ _ Hd Pp) in H0. apply below_le in Bp.
        rewrite (parent_fun _ _ _ _ Hd Pp) in H. lia.
  - intros u. rewrite subtree_In by assumption. cbn [In]. rewrite in_flat_map. split.
    + intros H. apply below_children in H. destruct H as [->|(c & Hc & H)]; [left; reflexivity|]. right.
      exists c. split; [apply Hl; exact Hc|]. apply subtree_In; [apply parent_gt in Hc; lia|exact H].
    + intros [<-|(c & Hc & H)]; [constructor|]. apply Hl in Hc. apply subtree_In in H; [|apply parent_gt in Hc; lia].
      eapply below_trans; [exact H|]. eapply below_step; [exact Hc|constructor].
Qed.

(** cholesky.rs 169-175 counts them. *)
Lemma sizes_ok : exists size, subtree_sizes n ps post = Done size /\ length size = n /\
  forall v, v < n -> nth_error size v = Some (length (subtree v)).
Proof.
  unfold subtree_sizes.
  set (szs := fun (v : nat) (pre : list nat) => 1 + list_sum (map (fun c => length (subtree c)) (filter (child_of ps v) pre))).
  destruct (ofold_ok_prefix (fun pre (size : list nat) => length size = n /\
    forall v, v < n -> nth_error size v = Some (szs v pre))
    (fun size j =>
      let! p := oget ps j in
      match p with
      | None => Done size
      | Some p => let! x := oget size j in oupdate size p (fun y => y + x)
      end) post) with (s := repeat 1 n) as (size & E & L & H).
  - intros pre j suf size El (L & H).
    assert (Ej : nth_error post (length pre) = Some j) by (rewrite El, nth_error_app2, Nat.sub_diag by lia; reflexivity).
    pose proof (post_at_bound _ _ Ej) as [_ Hj]. pose proof (pl_eq _ _ Ej) as Epl.
    destruct (nth_error_ex ps j) as [o Ho]; [lia|]. rewrite (proj2 (oget_done _ _ _) Ho). cbn [obind].
    assert (Hsz : szs j pre = length (subtree j)).
    { unfold szs. symmetry. apply subtree_size; [exact Hj| |].
      - apply NoDup_filter. pose proof post_NoDup as ND. rewrite El in ND. apply NoDup_left in ND. exact ND.
      - intros c. rewrite filter_In, child_of_spec. split; [tauto|]. intros Hc. split; [|exact Hc].
        pose proof (parent_gt _ _ Hc) as Hcj. assert (B : below_node ps c j) by (eapply below_step; [exact Hc|constructor]).
        assert (Hlt : pl c < pl j) by (apply below_place_lt; [exact B|exact Hj|lia]).
        pose proof (pl_at c ltac:(lia)) as Hc'. rewrite El, nth_error_app1 in Hc' by lia.
        eapply nth_error_In. exact Hc'. }
    assert (Step : forall v, szs v (pre ++ [j]) = if child_of ps v j then szs v pre + length (subtree j) else szs v pre).
    { intros v. unfold szs. rewrite filter_app, map_app, list_sum_app. cbn [filter].
      destruct (child_of ps v j); cbn; lia. }
    destruct o as [p|].
    + pose proof (parent_gt _ _ Ho) as Hp.
      rewrite (proj2 (oget_done _ _ _) (H j Hj)). cbn [obind]. unfold oupdate.
      rewrite (proj2 (oget_done _ _ _) (H p ltac:(lia))). cbn [obind]. rewrite oset_ok by lia.
      eexists; split; [reflexivity|]. rewrite lset_length. split; [exact L|]. intros v Hv. rewrite Step, nth_error_lset.
      destruct (Nat.ltb_spec p (length size)); [|lia].
      destruct (Nat.eqb_spec p v) as [<-|N].
      * rewrite (proj2 (child_of_spec ps p j)) by exact Ho. rewrite Hsz. reflexivity.
      * destruct (child_of ps v j) eqn:Ec; [|apply H; exact Hv]. apply child_of_spec in Ec.
        exfalso. apply N. eapply parent_fun; [exact Ho|exact Ec].
    + eexists; split; [reflexivity|]. split; [exact L|]. intros v Hv. rewrite Step.
      destruct (child_of ps v j) eqn:Ec; [|apply H; exact Hv]. apply child_of_spec in Ec. unfold parent in Ec. congruence.
  - split; [apply repeat_length|]. intros v Hv. rewrite nth_error_repeat, (proj2 (Nat.ltb_lt _ _)) by exact Hv. reflexivity.
  - exists size. split; [exact E|]. split; [exact L|]. intros v Hv. rewrite H by exact Hv. f_equal. unfold szs. symmetry.
    apply subtree_size; [exact Hv|apply NoDup_filter, post_NoDup|]. intros c. rewrite filter_In, child_of_spec, post_In.
    split; [tauto|]. intros Hc. split; [|exact Hc]. apply parent_gt in Hc. lia.
Qed.

(** cholesky.rs 179-191: the first descendants are in the first places. *)
Lemma first_descendants_ok size : length size = n ->
  (forall v, v < n -> nth_error size v = Some (length (subtree v))) ->
  exists firsts, first_descendants_of n size post = Done firsts /\ length firsts = n /\
  forall v, v < n -> exists d, nth_error firsts v = Some d /\ nth_error places d = Some (fp v).
Proof.
  intros Ls Hs. unfold first_descendants_of.
  destruct (ofold_ok_prefix (fun pre (firsts : list nat) => length firsts = n /\
    forall v, v < n -> pl v < length pre -> exists d, nth_error firsts v = Some d /\ nth_error places d = Some (fp v))
    (fun first '(place, j) =>
      let! x := oget size j in
      let! at_ := osub (place + 1) x in
      let! d := oget post at_ in
      oset first j d) (enumerate post)) with (s := repeat 0 n) as (firsts & E & L & H).
  - intros pre [place j] suf firsts El (L & H). destruct (enumerate_at _ _ _ _ El) as (E1 & E2 & _ & _).
    cbn [fst snd] in E1, E2. subst place. pose proof (post_at_bound _ _ E2) as [_ Hj]. pose proof (pl_eq _ _ E2) as Epl.
    rewrite (proj2 (oget_done _ _ _) (Hs j Hj)). cbn [obind]. destruct (subtree_interval j Hj) as [Hle _].
    unfold osub. destruct (Nat.leb_spec (length (subtree j)) (length pre + 1)); [|lia]. cbn [obind].
    rewrite Epl. fold (fp j).
    assert (Hfp : fp j < n).
    { unfold fp. assert (In j (subtree j)) by (apply subtree_In; [exact Hj|constructor]).
      pose proof (pl_bound j Hj). destruct (subtree j); [contradiction|]. cbn [length]. lia. }
    destruct (nth_error_ex post (fp j)) as [d Hd]; [rewrite post_length; exact Hfp|].
    rewrite (proj2 (oget_done _ _ _) Hd). cbn [obind]. rewrite oset_ok by lia.
    eexists; split; [reflexivity|]. rewrite lset_length. split; [exact L|]. rewrite app_length. cbn [length].
    intros v Hv Hlt. rewrite nth_error_lset. destruct (Nat.ltb_spec j (length firsts)); [|lia].
    destruct (Nat.eqb_spec j v) as [<-|N].
    + exists d. split; [reflexivity|]. apply Hpl. exact Hd.
    + apply H; [exact Hv|]. assert (pl v <> pl j) by (intros Ex; apply N; symmetry; apply pl_inj; assumption). lia.
  - split; [apply repeat_length|]. cbn [length]. intros; lia.
  - exists firsts. split; [exact E|]. split; [exact L|]. intros v Hv. apply H; [exact Hv|].
    rewrite enumerate_length, post_length. apply pl_bound. exact Hv.
Qed.

(** cholesky.rs 195-203: the first column of every row *)
Definition firsts_ok (fcs : list (option nat)) : Prop := length fcs = m /\
  forall i, i < m -> (exists f, nth_error fcs i = Some (Some f) /\ first_of i f) \/
                     (nth_error fcs i = Some None /\ forall c, ~ structural s i c).

Lemma first_columns_ok : exists fcs, first_columns_of s post = Done fcs /\ firsts_ok fcs.
Proof.
  unfold first_columns_of. fold m.
  set (good := fun (fs : list (option nat)) (D : nat -> nat -> Prop) => length fs = m /\
    forall i, i < m -> (exists f, nth_error fs i = Some (Some f) /\ structural s i f /\
                          forall c, structural s i c -> D i c -> pl f <= pl c) \/
                       (nth_error fs i = Some None /\ forall c, structural s i c -> ~ D i c)).
  destruct (ofold_ok_prefix (fun pre (fs : list (option nat)) =>
      good fs (fun _ c => pl c < length pre) /\ forall i f, nth_error fs i = Some (Some f) -> pl f < length pre)
    (fun first j =>
      let! rows := index_column s j in
      ofold (fun first i =>
        let! f := oget first i in
        match f with None => oset first i (Some j) | Some _ => Done first end) rows first) post)
    with (s := repeat (@None nat) m) as (fs & E & (L & H) & _).
  - intros pre j suf fs El [G Hlt].
    assert (Ej : nth_error post (length pre) = Some j) by (rewrite El, nth_error_app2, Nat.sub_diag by lia; reflexivity).
    pose proof (post_at_bound _ _ Ej) as [_ Hj]. pose proof (pl_eq _ _ Ej) as Epl.
    destruct (index_column_ok s j W Hj) as (rows & Er & Hr). rewrite Er. cbn [obind].
    destruct (ofold_ok_prefix (fun pr (fs : list (option nat)) =>
        good fs (fun i c => pl c < length pre \/ (c = j /\ In i pr)) /\
        forall i f, nth_error fs i = Some (Some f) -> pl f < length pre \/ f = j)
      (fun first i =>
        let! f := oget first i in
        match f with None => oset first i (Some j) | Some _ => Done first end) rows) with (s := fs) as (fs' & E' & (L' & H') & Hlt').
    + intros pr i su fs' Er' [[L' H'] Hlt'].
      assert (Hi : structural s i j) by (apply Hr; rewrite Er'; apply in_or_app; right; left; reflexivity).
      pose proof (structural_bound _ _ _ W Hi) as [Him _]. fold m in Him.
      destruct (H' i Him) as [(f & Hf & Sf & Mf)|(Hf & Mf)]; rewrite (proj2 (oget_done _ _ _) Hf); cbn [obind].
      * eexists; split; [reflexivity|]. split; [|exact Hlt']. split; [exact L'|]. intros i' Hi'.
        destruct (H' i' Hi') as [(f' & Hf' & Sf' & Mf')|(Hf' & Mf')].
        -- left. exists f'. split; [exact Hf'|]. split; [exact Sf'|]. intros c Sc [Hc|[-> Hc]]; [apply Mf'; auto|].
           apply in_app_or in Hc. destruct Hc as [Hc|[<-|[]]]; [apply Mf'; auto|].
           destruct (Hlt' i f' Hf') as [X|X]; [lia|subst f'; lia].
        -- right. split; [exact Hf'|]. intros c Sc [Hc|[-> Hc]]; [apply (Mf' c Sc); auto|].
           apply in_app_or in Hc. destruct Hc as [Hc|[<-|[]]]; [apply (Mf' j Sc); auto|]. congruence.
      * rewrite oset_ok by lia. eexists; split; [reflexivity|]. split.
        -- split; [rewrite lset_length; exact L'|]. intros i' Hi'. rewrite nth_error_lset.
           destruct (Nat.ltb_spec i (length fs')); [|lia]. destruct (Nat.eqb_spec i i') as [<-|N].
           ++ left. exists j. split; [reflexivity|]. split; [exact Hi|]. intros c Sc [Hc|[-> Hc]]; [|lia].
              exfalso. apply (Mf c Sc). left; exact Hc.
           ++ destruct (H' i' Hi') as [(f' & Hf' & Sf' & Mf')|(Hf' & Mf')].
              ** left. exists f'. split; [exact Hf'|]. split; [exact Sf'|]. intros c Sc [Hc|[-> Hc]]; [apply Mf'; auto|].
                 apply in_app_or in Hc. destruct Hc as [Hc|[<-|[]]]; [apply Mf'; auto|congruence].
              ** right. split; [exact Hf'|]. intros c Sc [Hc|[-> Hc]]; [apply (Mf' c Sc); auto|].
                 apply in_app_or in Hc. destruct Hc as [Hc|[<-|[]]]; [apply (Mf' j Sc); auto|congruence].
        -- intros i' f. rewrite nth_error_lset. destruct (Nat.ltb_spec i (length fs')); [|lia].
           destruct (Nat.eqb_spec i i') as [<-|N]; [intros [= <-]; right; reflexivity|apply Hlt'].
    + split; [|intros i f Hf; left; apply (Hlt i f Hf)]. destruct G as [Lg Hg]. split; [exact Lg|]. intros i Hi.
      destruct (Hg i Hi) as [(f & Hf & Sf & Mf)|(Hf & Mf)].
      * left. exists f. split; [exact Hf|]. split; [exact Sf|]. intros c Sc [Hc|[-> []]]. apply Mf; assumption.
      * right. split; [exact Hf|]. intros c Sc [Hc|[-> []]]. apply (Mf c Sc Hc).
    + exists fs'. split; [exact E'|]. rewrite app_length. cbn [length]. split.
      * split; [exact L'|]. intros i Hi.
        assert (Cv : forall c, structural s i c -> pl c < length pre + 1 -> pl c < length pre \/ (c = j /\ In i rows)).
        { intros c Sc Hc. destruct (Nat.eq_dec (pl c) (length pre)) as [Ec|]; [|lia]. right.
          assert (c = j) by (apply pl_inj; [apply (structural_bound _ _ _ W Sc)|exact Hj|lia]). subst c.
          split; [reflexivity|]. apply Hr. exact Sc. }
        destruct (H' i Hi) as [(f & Hf & Sf & Mf)|(Hf & Mf)].
        -- left. exists f. split; [exact Hf|]. split; [exact Sf|]. intros c Sc Hc. apply Mf; [exact Sc|]. apply Cv; assumption.
        -- right. split; [exact Hf|]. intros c Sc Hc. apply (Mf c Sc). apply Cv; assumption.
      * intros i f Hf. destruct (Hlt' i f Hf) as [X|X]; [lia|subst f; lia].
  - split; [|intros i f Hf; rewrite nth_error_repeat in Hf; destruct (i <? m); discriminate].
    split; [apply repeat_length|]. intros i Hi. right. rewrite nth_error_repeat, (proj2 (Nat.ltb_lt _ _)) by exact Hi. split; [reflexivity|].
    cbn [length]. intros; lia.
  - exists fs. split; [exact E|]. split; [exact L|]. intros i Hi.
    assert (Hpb : forall c, structural s i c -> pl c < length post).
    { intros c Sc. rewrite post_length. apply pl_bound. apply (structural_bound _ _ _ W Sc). }
    destruct (H i Hi) as [(f & Hf & Sf & Mf)|(Hf & Mf)].
    + left. exists f. split; [exact Hf|]. split; [exact Sf|]. intros c Sc. pose proof (Mf c Sc (Hpb c Sc)) as Hle.
      destruct (Nat.le_gt_cases f c) as [L1|L1]; [apply (row_chain i); assumption|].
      assert (B : below_node ps c f) by (apply (row_chain i); [assumption|assumption|lia]).
      assert (pl c < pl f) by (apply below_place_lt; [exact B|apply (structural_bound _ _ _ W Sf)|lia]). lia.
    + right. split; [exact Hf|]. intros c Sc. apply (Mf c Sc). apply Hpb. exact Sc.
Qed.

(** cholesky.rs 207-221: the later columns of the rows with a given first column *)
Lemma adjacency_ok fcs : firsts_ok fcs -> exists hadj, higher_adjacency s post places fcs = Done hadj /\ length hadj = n /\
  forall f, f < n -> exists us, nth_error hadj f = Some us /\ forall u, In u us <-> leaf f u.
Proof.
  intros [Lf Hf]. unfold higher_adjacency. fold n.
  set (good := fun (hadj : list (list nat)) (D : nat -> nat -> Prop) => length hadj = n /\
    forall f, f < n -> exists us, nth_error hadj f = Some us /\
      forall u, In u us <-> f <> u /\ exists i, first_of i f /\ structural s i u /\ D i u).
  destruct (ofold_ok_prefix (fun pre hadj => good hadj (fun _ u => pl u < length pre))
    (fun hadj '(place, j) =>
      let! rows := index_column s j in
      ofold (fun hadj i =>
        let! f := oget fcs i in
        let! f := ounwrap f in
        let! pf := oget places f in
        if pf <? place then oupdate hadj f (fun us => us ++ [j]) else Done hadj) rows hadj) (enumerate post))
    with (s := repeat (@nil nat) n) as (hadj & E & L & H).
  - intros pre [place j] suf hadj El G. destruct (enumerate_at _ _ _ _ El) as (E1 & E2 & _ & _).
    cbn [fst snd] in E1, E2. subst place. pose proof (post_at_bound _ _ E2) as [_ Hj]. pose proof (pl_eq _ _ E2) as Epl.
    destruct (index_column_ok s j W Hj) as (rows & Er & Hr). rewrite Er. cbn [obind].
    destruct (ofold_ok_prefix (fun pr hadj => good hadj (fun i u => pl u < length pre \/ (u = j /\ In i pr)))
      (fun hadj i =>
        let! f := oget fcs i in
        let! f := ounwrap f in
        let! pf := oget places f in
        if pf <? length pre then oupdate hadj f (fun us => us ++ [j]) else Done hadj) rows) with (s := hadj) as (hadj' & E' & L' & H').
    + intros pr i su hadj' Er' [L' H'].
      assert (Hi : structural s i j) by (apply Hr; rewrite Er'; apply in_or_app; right; left; reflexivity).
      pose proof (structural_bound _ _ _ W Hi) as [Him _]. fold m in Him.
      destruct (Hf i Him) as [(f & Ef & Ff)|(_ & Nf)]; [|exfalso; apply (Nf j Hi)].
      rewrite (proj2 (oget_done _ _ _) Ef). cbn [obind ounwrap]. pose proof (first_bound _ _ Ff) as [_ Hfn].
      rewrite (proj2 (oget_done _ _ _) (pl_get f Hfn)). cbn [obind].
      pose proof (proj2 Ff j Hi) as Bfj. pose proof (below_place _ _ Bfj Hj) as Plj.
      destruct (Nat.ltb_spec (pl f) (length pre)) as [Hlt|Hge].
      * unfold oupdate. destruct (H' f Hfn) as (us & Eu & Hu). rewrite (proj2 (oget_done _ _ _) Eu). cbn [obind].
        rewrite oset_ok by lia. eexists; split; [reflexivity|]. split; [rewrite lset_length; exact L'|].
        intros g Hg. rewrite nth_error_lset. destruct (Nat.ltb_spec f (length hadj')); [|lia].
        destruct (Nat.eqb_spec f g) as [<-|N].
        -- eexists; split; [reflexivity|]. intros u. rewrite in_app_iff, Hu. cbn [In]. split.
           ++ intros [(N & i' & F1 & F2 & D)|[<-|[]]].
              ** split; [exact N|]. exists i'. split; [exact F1|]. split; [exact F2|]. destruct D as [D|[D1 D2]]; [auto|].
                 right. split; [exact D1|]. apply in_or_app; left; exact D2.
              ** split; [intros ->; lia|]. exists i. split; [exact Ff|]. split; [exact Hi|]. right. split; [reflexivity|].
                 apply in_or_app; right; left; reflexivity.
           ++ intros (N & i' & F1 & F2 & D). destruct D as [D|[D1 D2]].
              ** left. split; [exact N|]. exists i'. auto.
              ** subst u. right. left. reflexivity.
        -- destruct (H' g Hg) as (us' & Eu' & Hu'). exists us'. split; [exact Eu'|]. intros u. rewrite Hu'. split.
           ++ intros (Ng & i' & F1 & F2 & D). split; [exact Ng|]. exists i'. split; [exact F1|]. split; [exact F2|].
              destruct D as [D|[D1 D2]]; [auto|]. right. split; [exact D1|]. apply in_or_app; left; exact D2.
           ++ intros (Ng & i' & F1 & F2 & D). split; [exact Ng|]. exists i'. split; [exact F1|]. split; [exact F2|].
              destruct D as [D|[D1 D2]]; [auto|]. right. split; [exact D1|]. apply in_app_or in D2.
              destruct D2 as [D2|[<-|[]]]; [exact D2|]. exfalso. apply N. apply (first_unique i); assumption.
      * eexists; split; [reflexivity|]. split; [exact L'|].
        assert (f = j) by (apply pl_inj; [exact Hfn|exact Hj|lia]). subst f.
        intros g Hg. destruct (H' g Hg) as (us' & Eu' & Hu'). exists us'. split; [exact Eu'|]. intros u. rewrite Hu'. split.
        ++ intros (Ng & i' & F1 & F2 & D). split; [exact Ng|]. exists i'. split; [exact F1|]. split; [exact F2|].
           destruct D as [D|[D1 D2]]; [auto|]. right. split; [exact D1|]. apply in_or_app; left; exact D2.
        ++ intros (Ng & i' & F1 & F2 & D). split; [exact Ng|]. exists i'. split; [exact F1|]. split; [exact F2|].
           destruct D as [D|[D1 D2]]; [auto|]. right. split; [exact D1|]. apply in_app_or in D2.
           destruct D2 as [D2|[<-|[]]]; [exact D2|]. exfalso. apply Ng. subst u. apply (first_unique i); assumption.
    + destruct G as [Lg Hg]. split; [exact Lg|]. intros f Hfn. destruct (Hg f Hfn) as (us & Eu & Hu). exists us.
      split; [exact Eu|]. intros u. rewrite Hu. split; intros (Nf & i & F1 & F2 & D); (split; [exact Nf|]); exists i;
        (split; [exact F1|]); (split; [exact F2|]).
      * left; exact D.
      * destruct D as [D|[_ []]]. exact D.
    + exists hadj'. split; [exact E'|]. rewrite app_length. cbn [length]. split; [exact L'|].
      intros f Hfn. destruct (H' f Hfn) as (us & Eu & Hu). exists us. split; [exact Eu|]. intros u. rewrite Hu.
      split; intros (Nf & i & F1 & F2 & D); (split; [exact Nf|]); exists i; (split; [exact F1|]); (split; [exact F2|]).
      * destruct D as [D|[-> D]]; lia.
      * destruct (Nat.eq_dec (pl u) (length pre)) as [Ec|]; [|lia]. right.
        assert (u = j) by (apply pl_inj; [apply (structural_bound _ _ _ W F2)|exact Hj|lia]). subst u.
        split; [reflexivity|]. apply Hr. exact F2.
  - split; [apply repeat_length|]. intros f Hfn. exists []. rewrite nth_error_repeat, (proj2 (Nat.ltb_lt _ _)) by exact Hfn. split; [reflexivity|].
    cbn [length In]. intros u. split; [intros []|]. intros (_ & i & _ & _ & D). lia.
  - exists hadj. split; [exact E|]. split; [exact L|]. intros f Hfn. destruct (H f Hfn) as (us & Eu & Hu). exists us.
    split; [exact Eu|]. intros u. rewrite Hu, enumerate_length, post_length. unfold leaf. split.
    + intros (N & i & F1 & F2 & _). split; [exact N|]. exists i. auto.
    + intros (N & i & F1 & F2). split; [exact N|]. exists i. split; [exact F1|]. split; [exact F2|]. apply pl_bound.
      apply (structural_bound _ _ _ W F2).
Qed.
End Tree.
