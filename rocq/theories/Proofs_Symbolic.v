(** The symbolic factorization provides what the numeric one needs. *)
From Coq Require Import List Arith Bool Lia ZArith Permutation Sorted.
From Verif Require Import Outcome Lib ModelSparse Spec_Sparse ModelForest Spec_Forest Proofs_Forest
  Proofs_Permutation Proofs_Convert ModelCholesky ModelQr Spec_Elimination Proofs_Elimination Spec_Qr Proofs_Columns
  Proofs_Factorize Proofs_QrSolve Proofs_Tree Proofs_Counts Proofs_Rows Proofs_Structure Props_Sparse.
Import ListNotations.
Local Open Scope nat_scope.

Lemma sorted_head j h : StronglySorted lt h -> In j h -> (forall r, In r h -> j <= r) ->
  exists t, h = j :: t /\ NoDup t /\ forall r, In r t -> j < r.
Proof.
  intros S Hj Hm. destruct S as [|x t S F]; [destruct Hj|]. rewrite Forall_forall in F.
  assert (x = j). { specialize (Hm x (or_introl eq_refl)). destruct Hj as [->|Hj]; [reflexivity|]. specialize (F j Hj). lia. }
  subst x. exists t. split; [reflexivity|]. split; [apply sorted_lt_NoDup; exact S|exact F].
Qed.

Theorem build_core s : well_formed s ->
  exists ps post counts,
    elimination_tree false s = Done ps /\ post_order ps = Done post /\ cholesky_counts_build s ps post = Done counts /\
    (structural_full_rank s -> rows_found (s_nrows s) (s_ncols s) ps (cc_first_columns counts)) /\
    (rows_found (s_nrows s) (s_ncols s) ps (cc_first_columns counts) -> exists cs rho Rs Hs,
    cholesky_structure_build s ps post counts = Done cs /\
    s_ncols s <= s_nrows s /\
    cs_l_structure cs = layout (s_ncols s) Rs /\ cs_h_structure cs = layout (s_nrows s) Hs /\
    length Rs = s_ncols s /\ length Hs = s_ncols s /\
    (forall i, i < s_nrows s -> nth_error (cs_row_permutation cs) i = Some (Some (rho i)) /\ rho i < s_nrows s) /\
    (forall i i', i < s_nrows s -> i' < s_nrows s -> rho i = rho i' -> i = i') /\
    (forall j, j < s_ncols s -> exists t, nth_error Hs j = Some (j :: t) /\ NoDup t /\ Forall (fun r => j < r < s_nrows s) t) /\
    (forall j, j < s_ncols s -> exists t, nth_error Rs j = Some (t ++ [j]) /\ StronglySorted lt t /\ Forall (fun r => r < j) t) /\
    forall cr, (forall j i, j < s_ncols s -> In i (cr j) <-> structural s i j) ->
      (forall j r, j < s_ncols s -> support Rs Hs rho cr j j r -> r < j -> In r (RR Rs j)) /\
      (forall j r, j < s_ncols s -> support Rs Hs rho cr j j r -> j <= r -> In r (HR Hs j)) /\
      (forall j k r, j < s_ncols s -> k < j -> ~ In k (RR Rs j) -> In r (HR Hs k) -> ~ support Rs Hs rho cr j k r)).
Proof.
  intros W. set (m := s_nrows s). set (n := s_ncols s) in *.
  destruct (product_ok s W) as (ps & Eps & Ln & HP). fold n in Ln, HP.
  pose proof (tree_forest s ps Ln HP) as Hf.
  destruct (post_order_ok ps Hf) as (post & Epost & PO).
  destruct (levels_ok ps Hf) as (levels & mx & Elev & Ll & Hlev & _). rewrite Ln in Ll.
  destruct (places_ok s ps Ln post PO) as (places & Epl & Lp & Hpl). fold n in Epl, Lp.
  destruct (sizes_ok s ps Ln HP post PO places Lp Hpl) as (size & Esz & Lsz & Hsz). fold n in Esz, Lsz, Hsz.
  destruct (first_descendants_ok s ps Ln HP post PO places Lp Hpl size Lsz Hsz) as (firsts & Efd & Lfd & Hfd). fold n in Efd, Lfd, Hfd.
  destruct (first_columns_ok s W ps Ln HP post PO places Lp Hpl) as (fcs & Efc & FO).
  destruct (adjacency_ok s W ps Ln HP post PO places Lp Hpl fcs FO) as (hadj & Eha & Lha & Hha). fold n in Lha, Hha.
  destruct FO as [Lf Hfo]. fold m in Lf, Hfo.
  pose proof (parent_gt s ps Ln HP) as Hup. fold n in Hup.
  assert (Lpost : length post = n) by (exact (post_length s ps Ln post PO)).
  assert (Hleaf : forall f u, leaf s ps f u -> f <> u /\ below_node ps f u /\ u < n).
  { intros f u H. split; [apply H|]. split; [eapply leaf_below; exact H|]. destruct H as (_ & i & _ & H).
    apply (structural_bound s i u W H). }
  set (w := map (fun s0 => if s0 =? 1 then 1%Z else 0%Z) size).
  assert (Lw : length w = n) by (unfold w; rewrite map_length; exact Lsz).
  destruct (counting_ok n ps Ln Hf Hup (pl places) (fp s ps places) (pl_inj s ps Ln post places Lp Hpl)
    (interval s ps Ln HP post PO places Lp Hpl) (leaf s ps) Hleaf levels Ll Hlev post places firsts hadj w Lw Lpost) as (st & Est & Lwt & Lct & Hct).
  { intros p v H. split; [eapply pl_eq; eassumption|]. apply (Permutation_in _ (po_nodes _ _ PO)) in H || idtac.
    apply nth_error_In in H. apply (Permutation_in _ (po_nodes _ _ PO)), in_seq in H. lia. }
  { exact (pl_bound s ps Ln post PO places Lp Hpl). }
  { exact Hfd. }
  { exact Hha. }
  destruct (accumulate_ok n ps Ln Hup levels Ll (n_weights st) Lwt) as (w' & Ew).
  set (counts := CholeskyCounts (map Z.to_nat w') (n_counts st) levels fcs).
  assert (Ecounts : cholesky_counts_build s ps post = Done counts).
  { unfold cholesky_counts_build. fold n. rewrite Ln, Lpost, Nat.eqb_refl. cbn [oassert obind]. rewrite Elev. cbn [obind].
    rewrite Epl. cbn [obind]. rewrite Esz. cbn [obind]. rewrite Efd. cbn [obind]. rewrite Efc. cbn [obind]. rewrite Eha. cbn [obind].
    fold w. rewrite Est. cbn [obind]. rewrite Ew. reflexivity. }
  assert (Hf1 : forall i f, nth_error fcs i = Some (Some f) -> first_of s ps i f).
  { intros i f H. assert (Hi : i < m) by (rewrite <- Lf; eapply nth_error_lt; exact H).
    destruct (Hfo i Hi) as [(f' & E & F)|[E _]]; [|congruence]. assert (f' = f) by congruence. subst f'. exact F. }
  assert (Hfst : forall i f, nth_error fcs i = Some (Some f) -> structural s i f) by (intros i f H; apply (Hf1 i f H)).
  assert (Hent : forall i j, structural s i j -> i < m /\ j < n /\ exists f, nth_error fcs i = Some (Some f) /\ below_node ps f j).
  { intros i j H. destruct (structural_bound s i j W H) as [Hi Hj]. split; [exact Hi|]. split; [exact Hj|].
    destruct (Hfo i Hi) as [(f & E & F)|[_ N]]; [|exfalso; eapply N; exact H]. exists f. split; [exact E|apply F; exact H]. }
  assert (Hpar : forall k j, parent ps k j -> exists i f, structural s i j /\ nth_error fcs i = Some (Some f) /\ below_node ps f k).
  { intros k j H. destruct (parent_row s ps Ln HP k j H) as (i & c & H1 & H2 & H3). destruct (Hent _ _ H1) as (_ & _ & f & F1 & _).
    exists i, f. split; [exact H1|]. split; [exact F1|]. eapply below_trans; [|exact H3]. apply (Hf1 _ _ F1). exact H2. }
  assert (Hfn : forall i f, nth_error fcs i = Some (Some f) -> f < n)
    by (intros i f H; apply (structural_bound s i f W (Hfst _ _ H))).
  exists ps, post, counts. split; [exact Eps|]. split; [exact Epost|]. split; [exact Ecounts|]. cbn [counts cc_first_columns]. split.
  { intros (rows & Lrows & Nrows & Hrows).
    destruct (assign_all m n ps Ln Hup fcs Lf Hfn) with (g := fun d => nth d rows 0) as (perm & q0 & q & Q & E0 & E1 & _).
    - intros d Hd. destruct (nth_error_ex rows d) as [i Hi]; [lia|]. rewrite (nth_error_nth _ _ _ Hi).
      destruct (Hent _ _ (Hrows _ _ Hi)) as (H1 & _ & H2). auto.
    - intros d e Hd He E. apply (proj1 (NoDup_nth_error rows) Nrows); [lia|].
      rewrite (nth_error_nth' rows 0), (nth_error_nth' rows 0) by lia. congruence.
    - exists q0, perm, q. auto. }
  intros (q0 & perm0 & q & E0 & E1).
  destruct (assign_done m n ps Ln Hup fcs Lf Hfn q0 perm0 q E0 E1) as (Q & HQ).
  destruct (permute_rows_rest m n ps Ln fcs Lf perm0 q0 q Q E0 E1 HQ)
    as (perm & rho & Eperm & Lperm & Hmn & Hrho & rho_inj & Hrhob & rho_onto).
  assert (Hcnt : forall j, j < n -> exists l, nth_error (n_counts st) j = Some (S (length l)) /\ NoDup l /\
      forall k, In k l <-> k <> j /\ below_node ps k j /\
        exists f, (f <> j /\ exists i, nth_error fcs i = Some (Some f) /\ structural s i j) /\ below_node ps f k).
  { intros j Hj. destruct (Hct j Hj) as (l & E & Nl & Hl). exists l. split; [exact E|]. split; [exact Nl|]. intros k. rewrite Hl.
    split; intros (H1 & H2 & f & (H3 & i & H4 & H5) & H6); (split; [exact H1|]); (split; [exact H2|]); exists f;
      (split; [|exact H6]); (split; [exact H3|]); exists i; (split; [|exact H5]).
    - destruct (Hent _ _ H5) as (Hi & _). destruct (Hfo i Hi) as [(f' & E' & F)|[_ N]]; [|exfalso; eapply N; exact H5].
      rewrite E'. rewrite (first_unique s ps Ln HP i f f' H4 F). reflexivity.
    - apply Hf1. exact H4. }
  assert (Hcol : forall j, j < n -> exists rows, index_column s j = Done rows /\ forall i, In i rows <-> structural s i j)
    by (intros j Hj; apply index_column_ok; assumption).
  destruct (structure_ok s m n ps Ln Hup fcs perm rho (n_counts st) Hcol Hent Hfst Hpar Lperm Hrho Hrhob Hmn Hcnt Lct)
    as (Rs & hs & mk & start & Estr & [C1 C2 C3 C4 C5] & Ecn).
  assert (Hnodes : Permutation post (seq 0 n)) by (rewrite <- Ln; apply (po_nodes _ _ PO)).
  destruct (roots_ok m n ps Ln perm (n_counts st) Lperm Hmn Lct levels Ll post Hnodes (po_parents _ _ PO)) as (roots & Eroots & Lroots & Hroots).
  destruct (row_roots_ok s m n ps Ln Hup fcs perm rho (n_counts st) Hent Hfst Lperm Hrho Hrhob Hmn Lct levels Ll Hlev Lf roots Lroots Hroots)
    as (rr & Err & Lrr & Hrr).
  destruct (weights_ok s m n ps Ln Hup fcs perm (n_counts st) Hent Hfst Lperm Hmn Lct levels Ll Lf rr Lrr Hrr) as (hw & Ehw).
  set (Hs := map sort_nats hs).
  exists (CholeskyStructure (Structure n n (concat Rs) (pointers_of (n_counts st))) perm
     (Structure m n (concat Hs) (pointers_of (map (@length nat) Hs)))), rho, Rs, Hs.
  assert (LHs : length Hs = n) by (unfold Hs; rewrite map_length; exact C2).
  split.
  { unfold cholesky_structure_build. fold m n. cbn [counts cc_first_columns cc_col_counts cc_levels]. rewrite Eperm. cbn [obind].
    rewrite Estr. cbn [obind]. rewrite Eroots. cbn [obind]. rewrite Err. cbn [obind]. rewrite Ehw. reflexivity. }
  split; [exact Hmn|]. cbn [cs_l_structure cs_h_structure cs_row_permutation].
  split; [unfold layout; rewrite C1, Ecn; reflexivity|]. split; [unfold layout; rewrite LHs; reflexivity|].
  split; [exact C1|]. split; [exact LHs|]. split; [exact Hrho|]. split; [exact rho_inj|].
  pose proof (carried_bound s m n ps Ln fcs perm rho (n_counts st) Hent Hfst Lperm Hrho Hmn Lct) as CB.
  assert (HH : forall j, j < n -> exists h, nth_error Hs j = Some h /\ StronglySorted lt h /\
      forall r, In r h <-> carried ps fcs rho j r).
  { intros j Hj. destruct (C5 j Hj) as (h & Eh & Nh & Hh). exists (sort_nats h). split; [unfold Hs; rewrite nth_error_map, Eh; reflexivity|].
    split; [apply sort_strict; exact Nh|]. intros r. rewrite sort_In. apply Hh. }
  assert (HHR : forall j r, j < n -> In r (HR Hs j) <-> carried ps fcs rho j r).
  { intros j r Hj. destruct (HH j Hj) as (h & Eh & _ & Hh). unfold HR. rewrite (nth_error_nth _ _ _ Eh). apply Hh. }
  assert (HRR : forall j k, j < n -> k < j -> In k (RR Rs j) <-> above s ps fcs j k).
  { intros j k Hj Hk. destruct (C4 j Hj) as (t & Et & _ & Ht). unfold RR. rewrite (nth_error_nth _ _ _ Et). rewrite in_app_iff, Ht.
    cbn [In]. split; [intros [H|[H|[]]]; [exact H|lia]|auto]. }
  split.
  { intros j Hj. destruct (HH j Hj) as (h & Eh & Sh & Hh). destruct (sorted_head j h Sh) as (t & -> & Nt & Ht).
    - apply Hh. left; reflexivity.
    - intros r Hr. apply Hh in Hr. apply (CB j r Hj Hr).
    - exists t. split; [exact Eh|]. split; [exact Nt|]. apply Forall_forall. intros r Hr. split; [apply Ht; exact Hr|].
      apply (CB j r Hj). apply Hh. right; exact Hr. }
  split.
  { intros j Hj. destruct (C4 j Hj) as (t & Et & St & Ht). exists t. split; [exact Et|]. split; [exact St|].
    apply Forall_forall. intros x Hx. apply Ht in Hx. apply Hx. }
  intros cr Hcr.
  assert (Sup : forall j k r, j < n -> k <= j -> support Rs Hs rho cr j k r ->
    (exists i, structural s i j /\ rho i = r) \/ (exists k', k' < k /\ above s ps fcs j k' /\ carried ps fcs rho k' r)).
  { intros j k r Hj Hk [H|(k' & Hk' & H1 & H2)].
    - left. apply in_map_iff in H. destruct H as (i & E & H). exists i. split; [apply (Hcr j i Hj); exact H|exact E].
    - right. exists k'. split; [exact Hk'|]. split; [apply HRR; [exact Hj|lia|exact H1]|apply HHR; [lia|exact H2]]. }
  split; [|split].
  - intros j r Hj H Hr. apply HRR; [exact Hj|exact Hr|].
    eapply (above_rows s m n ps Ln Hup fcs perm rho (n_counts st)); try eassumption.
    destruct (Sup j j r Hj (le_n _) H) as [P|(k' & _ & P1 & P2)]; [left; exact P|right; eauto].
  - intros j r Hj H Hr. apply HHR; [exact Hj|].
    eapply (carried_rows s m n ps Ln Hup fcs perm rho (n_counts st)); try eassumption.
    destruct (Sup j j r Hj (le_n _) H) as [P|(k' & _ & P1 & P2)]; [left; exact P|right; eauto].
  - intros j k r Hj Hk N H Su.
    eapply (rows_apart s m n ps Ln Hup fcs perm rho (n_counts st) Hent Hfst Lperm Hrhob Hmn Lct levels Ll Lf rho_inj rho_onto j k r Hj Hk).
    + intros Ab. apply N. apply HRR; assumption.
    + apply HHR; [lia|exact H].
    + apply Sup; [exact Hj|lia|exact Su].
Qed.

(** A permutation's inverse *)
Lemma invert_ok n p : is_ordering n p -> exists inv, invert_permutation n p = Done inv /\ length inv = n /\
  forall j c, nth_error p j = Some c -> nth_error inv c = Some j.
Proof.
  intros P. destruct (ordering_bound n p P) as (Lp & Np & Bp). unfold invert_permutation.
  destruct (ofold_ok_prefix (fun pre (inv : list nat) => length inv = n /\
      forall j c, j < length pre -> nth_error p j = Some c -> nth_error inv c = Some j)
    (fun inv '(idx, col) => oset inv col idx) (enumerate p)) with (s := repeat 0 n) as (inv & E & L & H).
  - intros pre [idx col] su inv El (L & H). destruct (enumerate_at p pre (idx, col) su El) as (E1 & E2 & _). cbn [fst snd] in E1, E2.
    rewrite oset_ok by (rewrite L; eapply Bp; exact E2). eexists; split; [reflexivity|]. rewrite lset_length. split; [exact L|].
    intros j c Hj Hc. rewrite nth_error_lset. rewrite app_length in Hj. cbn [length] in Hj.
    destruct (Nat.eqb_spec col c) as [<-|N].
    + destruct (Nat.ltb_spec col (length inv)); [|specialize (Bp _ _ E2); lia]. f_equal.
      rewrite E1. apply (proj1 (NoDup_nth_error p) Np); [eapply nth_error_lt; exact E2|congruence].
    + apply H; [|exact Hc]. destruct (Nat.eq_dec j (length pre)) as [->|]; [congruence|lia].
  - split; [apply repeat_length|]. cbn [length]. intros; lia.
  - exists inv. split; [exact E|]. split; [exact L|]. intros j c Hc. apply H; [|exact Hc].
    rewrite enumerate_length. eapply nth_error_lt; exact Hc.
Qed.

Lemma inverse_ordering n p inv : is_ordering n p -> length inv = n ->
  (forall j c, nth_error p j = Some c -> nth_error inv c = Some j) -> is_ordering n inv.
Proof.
  intros P L H. destruct (ordering_bound n p P) as (Lp & Np & Bp). apply Permutation_sym. apply NoDup_Permutation_bis.
  - apply seq_NoDup.
  - rewrite seq_length. lia.
  - intros j Hj. apply in_seq in Hj. destruct (nth_error_ex p j) as [c Hc]; [lia|]. eapply nth_error_In. apply H. exact Hc.
Qed.

Lemma NoDup_map_inj {A B} (f : A -> B) l : (forall x y, In x l -> In y l -> f x = f y -> x = y) -> NoDup l -> NoDup (map f l).
Proof.
  intros I N. induction N as [|x l Hx _ IH]; cbn; constructor.
  - intros H. apply in_map_iff in H. destruct H as (y & E & Hy). apply Hx.
    rewrite (I x y); [exact Hy|now left|now right|symmetry; exact E].
  - apply IH. intros y z Hy Hz. apply I; now right.
Qed.

(** The columns may be permuted first. *)
Lemma full_rank_permuted s s' p : is_ordering (s_ncols s) p -> s_ncols s' = s_ncols s ->
  (forall i k, structural s' i k <-> exists j, nth_error p k = Some j /\ structural s i j) ->
  structural_full_rank s -> structural_full_rank s'.
Proof.
  intros P En Hs (rows & L & N & H). destruct (ordering_bound _ p P) as (Lp & Np & Bp).
  exists (map (fun c => nth c rows 0) p). split; [rewrite map_length; congruence|]. split.
  - apply NoDup_map_inj; [|exact Np]. intros c d Hc Hd E.
    apply In_nth_error in Hc. destruct Hc as [x Hc]. apply In_nth_error in Hd. destruct Hd as [y Hd].
    apply Bp in Hc. apply Bp in Hd. apply (proj1 (NoDup_nth_error rows) N); [lia|].
    rewrite (nth_error_nth' rows 0), (nth_error_nth' rows 0) by lia. congruence.
  - intros j i Hj. rewrite nth_error_map in Hj. destruct (nth_error p j) as [c|] eqn:Ec; [|discriminate]. injection Hj as <-.
    apply Hs. exists c. split; [exact Ec|]. apply H. apply nth_error_nth'. specialize (Bp _ _ Ec). lia.
Qed.

Lemma rows_of_In s c i : well_formed s -> c < s_ncols s -> In i (rows_of s c) <-> structural s i c.
Proof. intros W Hc. destruct (index_column_ok s c W Hc) as (rows & E & H). unfold rows_of. rewrite E. apply H. Qed.

Theorem symbolic_build_core colamd s ordering : well_formed s ->
  (ordering = Colamd -> exists p, colamd s = Done p /\ is_ordering (s_ncols s) p) ->
  exists ps fcs, (structural_full_rank s -> rows_found (s_nrows s) (s_ncols s) ps fcs) /\
    (rows_found (s_nrows s) (s_ncols s) ps fcs ->
      exists sq rho Rs Hs, symbolic_build colamd s ordering = Done sq /\ symbolic_ok s sq rho Rs Hs) /\
    (forall sq, symbolic_build colamd s ordering = Done sq ->
      permute_rows (s_nrows s) (s_ncols s) ps fcs = Done (sq_row_permutation sq) /\
      s_nrows (sq_h_structure sq) = s_nrows s /\ s_nrows (sq_r_structure sq) = s_ncols s).
Proof.
  intros W Hc. set (n := s_ncols s) in *.
  assert (Pre : exists p q s', match ordering with
    | Colamd =>
        let! permutation := colamd s in
        let! permuted := structure_permute_columns s permutation in
        let! inv := invert_permutation (s_ncols s) permutation in
        let! sequence := build_for_gather_permutation inv in
        Done (permutation, sequence, permuted)
    | Natural =>
        let permutation := seq 0 (s_ncols s) in
        let! sequence := build_for_gather_permutation permutation in
        Done (permutation, sequence, s)
    end = Done (p, q, s') /\ is_ordering n p /\ well_formed s' /\ s_nrows s' = s_nrows s /\ s_ncols s' = n /\
      (forall i k, structural s' i k <-> exists j, nth_error p k = Some j /\ structural s i j) /\
      forall A (x : list A), n <= length x -> exists x', permute_slice q x = Done x' /\
        length x' = length x /\ forall j c, nth_error p j = Some c -> nth_error x' c = nth_error x j).
  { destruct ordering.
    - assert (P : is_ordering n (seq 0 n)) by (unfold is_ordering; reflexivity).
      destruct (gather_ok (seq 0 n)) as (q & Eq & _ & _ & Hq); [rewrite seq_length; reflexivity|]. rewrite seq_length in Hq.
      exists (seq 0 n), q, s. cbv zeta. fold n. rewrite Eq. cbn [obind]. split; [reflexivity|]. split; [exact P|]. split; [exact W|].
      split; [reflexivity|]. split; [reflexivity|]. split.
      + intros i k. split.
        * intros H. exists k. split; [|exact H]. destruct (structural_bound s i k W H) as [_ Hk]. rewrite nth_error_seq.
          rewrite (proj2 (Nat.ltb_lt _ _)) by exact Hk. reflexivity.
        * intros (j & E & H). rewrite nth_error_seq in E. destruct (k <? n); [|discriminate]. injection E as <-. exact H.
      + intros A x Lx. destruct (Hq A x Lx) as (x' & E & L & H & _). exists x'. split; [exact E|]. split; [exact L|].
        intros j c E'. rewrite nth_error_seq in E'. destruct (Nat.ltb_spec j n) as [Hj|]; [|discriminate]. injection E' as <-. cbn [Nat.add].
        apply H. rewrite nth_error_seq, (proj2 (Nat.ltb_lt _ _)) by exact Hj. reflexivity.
    - destruct (Hc eq_refl) as (p & Ep & P). destruct (ordering_bound n p P) as (Lp & Np & Bp).
      destruct (C29_structure_partial s p W) as (s' & Es & W' & Sh & Hs).
      { apply Forall_forall. intros c Hin. apply In_nth_error in Hin. destruct Hin as [j Hj]. exact (Bp _ _ Hj). }
      destruct (invert_ok n p P) as (inv & Ei & Li & Hi).
      pose proof (inverse_ordering n p inv P Li Hi) as Pi.
      destruct (gather_ok inv) as (q & Eq & _ & _ & Hq); [rewrite Li; exact Pi|]. rewrite Li in Hq.
      exists p, q, s'. fold n. rewrite Ep. cbn [obind]. rewrite Es. cbn [obind]. rewrite Ei. cbn [obind]. rewrite Eq. cbn [obind].
      split; [reflexivity|]. split; [exact P|]. split; [exact W'|]. unfold shape in Sh. injection Sh as Sh1 Sh2.
      split; [exact Sh1|]. split; [congruence|]. split; [exact Hs|].
      intros A x Lx. destruct (Hq A x Lx) as (x' & E & L & H & _). exists x'. split; [exact E|]. split; [exact L|].
      intros j c Ec. apply H. apply Hi. exact Ec. }
  destruct Pre as (p & q & s' & Epre & P & W' & Em & En & Hs' & Hq).
  destruct (ordering_bound n p P) as (Lp & Np & Bp).
  destruct (build_core s' W') as (ps & post & counts & E1 & E2 & E3 & HF & HC).
  assert (Eb : symbolic_build colamd s ordering = let! cs := cholesky_structure_build s' ps post counts in
    Done (SymbolicQr (cs_row_permutation cs) (cs_l_structure cs) (cs_h_structure cs) p q)).
  { unfold symbolic_build. match goal with |- obind ?M _ = _ => rewrite (Epre : M = _) end. cbn [obind]. rewrite E1. cbn [obind]. rewrite E2. cbn [obind]. rewrite E3. reflexivity. }
  exists ps, (cc_first_columns counts). rewrite En, Em in HF, HC. split.
  { intros FR. apply HF. apply (full_rank_permuted s s' p); auto. }
  split.
  2: { intros sq Es. rewrite Eb in Es. apply obind_done in Es. destruct Es as (cs & Ec & Es). injection Es as <-.
    cbn [sq_row_permutation sq_h_structure sq_r_structure].
    unfold cholesky_structure_build in Ec. rewrite Em, En in Ec.
    repeat first [apply obind_done in Ec; destruct Ec as (? & ? & Ec) | match type of Ec with (let '(_, _) := ?o in _) = _ => destruct o end].
    injection Ec as <-. cbn [cs_row_permutation cs_l_structure cs_h_structure s_nrows]. auto. }
  intros RF. destruct (HC RF) as (cs & rho & Rs & Hs & E4 & K1 & K2 & K3 & K4 & K5 & K6 & K7 & K8 & K9 & K10).
  exists (SymbolicQr (cs_row_permutation cs) (cs_l_structure cs) (cs_h_structure cs) p q), rho, Rs, Hs. split.
  { rewrite Eb, E4. reflexivity. }
  destruct (K10 (fun j => rows_of s (nth j p 0))) as (S1 & S2 & S3).
  { intros j i Hj. destruct (nth_error_ex p j) as [c Ec]; [lia|]. rewrite (nth_error_nth _ _ _ Ec).
    rewrite rows_of_In by (try exact W; exact (Bp _ _ Ec)). rewrite Hs'. split; [eauto|].
    intros (c' & E' & H). congruence. }
  constructor; cbn [sq_row_permutation sq_r_structure sq_h_structure sq_col_permutation sq_inverse]; auto.
  - intros i Hi. destruct (K6 i Hi) as [Ei Bi]. split; [|exact Bi]. unfold permuted_row. cbn [sq_row_permutation].
    rewrite (proj2 (oget_done _ _ _) Ei). reflexivity.
  - intros A x Lx. destruct (Hq A x) as (x' & E & L & H); [lia|]. exists x'. split; [exact E|]. split; [lia|exact H].
Qed.

Theorem symbolic_build_ok colamd s ordering : well_formed s -> structural_full_rank s ->
  (ordering = Colamd -> exists p, colamd s = Done p /\ is_ordering (s_ncols s) p) ->
  exists sq rho Rs Hs, symbolic_build colamd s ordering = Done sq /\ symbolic_ok s sq rho Rs Hs.
Proof. intros W FR Hc. destruct (symbolic_build_core colamd s ordering W Hc) as (ps & fcs & H1 & H2 & _). auto. Qed.

(** Without rank: if the rows stay within the matrix *)
Theorem symbolic_build_in_range colamd s ordering sq : well_formed s ->
  (ordering = Colamd -> exists p, colamd s = Done p /\ is_ordering (s_ncols s) p) ->
  symbolic_build colamd s ordering = Done sq -> s_ncols s <= s_nrows s ->
  (forall i p, i < s_nrows s -> permuted_row sq i = Done p -> p < s_nrows s) ->
  exists rho Rs Hs, symbolic_ok s sq rho Rs Hs.
Proof.
  intros W Hc E Hn Hp. destruct (symbolic_build_core colamd s ordering W Hc) as (ps & fcs & _ & H2 & H3).
  destruct (H3 sq E) as (E' & _). destruct H2 as (sq' & rho & Rs & Hs & Es & SO).
  - eapply rows_found_in_range; [exact E'|exact Hn|]. intros i p Hi Ei. apply (Hp i p Hi). unfold permuted_row.
    rewrite (proj2 (oget_done _ _ _) Ei). reflexivity.
  - assert (sq' = sq) by congruence. subst sq'. eauto.
Qed.
