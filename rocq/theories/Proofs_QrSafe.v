(** Factorizing and solving do not panic, whatever the numbers (also in binary64),
    given a suitable symbolic factorization *)
From Coq Require Import List Arith Lia Bool Sorted Permutation.
From Verif Require Import Num Outcome Lib ModelSparse ModelForest ModelCholesky ModelQr
  Spec_Sparse Spec_Qr Proofs_Sparse Proofs_Format Proofs_Elimination Proofs_Columns Proofs_Factorize Proofs_QrSolve.
Import ListNotations.
Local Open Scope nat_scope.

Lemma enumerate_In {A} (l : list A) k a : In (k, a) (enumerate l) -> nth_error l k = Some a.
Proof.
  intros H. apply In_nth_error in H. destruct H as (i & H). rewrite enumerate_nth in H.
  destruct (nth_error l i) as [x|] eqn:E; cbn in H; [|discriminate]. injection H as <- <-. exact E.
Qed.

Lemma oslice_done {A} (l : list A) i j : i <= j -> j <= length l ->
  exists s, oslice l i j = Done s /\ length s = j - i.
Proof.
  intros H1 H2. unfold oslice. destruct (Nat.leb_spec i j); [|lia]. destruct (Nat.leb_spec j (length l)); [|lia].
  cbn [andb]. eexists. split; [reflexivity|]. rewrite firstn_length, skipn_length. lia.
Qed.

(** A column of a matrix, of any type *)
Lemma column_done {T} (a : matrix T) c : well_formed_matrix a -> c < s_ncols (m_structure a) ->
  exists p q vs rs, index_column_range (m_structure a) c = Done (p, q) /\ p <= q <= length (m_values a) /\
    column (m_structure a) c p q /\
    oslice (m_values a) p q = Done vs /\
    matrix_column a c = Done (vs, rs) /\ index_column (m_structure a) c = Done rs /\
    length vs = q - p /\ length rs = q - p /\
    Forall (fun r => r < s_nrows (m_structure a)) rs.
Proof.
  intros W Hc. destruct W as [W Wv]. set (s := m_structure a) in *. pose proof (wf_count _ W) as Wc.
  destruct (nth_error_ex (s_column_pointers s) c) as [p Hp]; [lia|].
  destruct (nth_error_ex (s_column_pointers s) (S c)) as [q Hq]; [lia|].
  assert (Hpq : p <= q) by (eapply wf_ordered; [exact W|]; split; eauto).
  assert (Hql : q <= length (s_row_indices s)) by (eapply wf_pointers_le; eauto).
  assert (Er : index_column_range s c = Done (p, q)).
  { unfold index_column_range. destruct (Nat.leb_spec (length (s_column_pointers s)) (c + 1)); [lia|].
    unfold oget. rewrite Nat.add_1_r, Hp, Hq. reflexivity. }
  destruct (oslice_done (m_values a) p q) as (vs & Ev & Lv); [lia|lia|].
  destruct (oslice_done (s_row_indices s) p q) as (rs & Es & Ls); [lia|lia|].
  exists p, q, vs, rs. split; [exact Er|]. split; [lia|]. split; [split; assumption|]. split; [exact Ev|].
  split; [unfold matrix_column; fold s; rewrite Er; cbn [obind]; rewrite Ev; cbn [obind]; now rewrite Es|].
  split; [unfold index_column; rewrite Er; exact Es|]. split; [exact Lv|]. split; [exact Ls|].
  apply Forall_forall. intros r Hr. unfold oslice in Es.
  destruct (Nat.leb_spec p q); [|lia]. destruct (Nat.leb_spec q (length (s_row_indices s))); [|lia].
  cbn [andb] in Es. injection Es as <-.
  apply In_nth_error in Hr. destruct Hr as (k & Hk). rewrite nth_error_firstn, nth_error_skipn in Hk.
  destruct (Nat.ltb _ _); [|discriminate]. eapply wf_bound; eauto.
Qed.

Section Safe.
  Context {F : Type} {NF : Num F}.

  Lemma householder_done (v : list F) : v <> [] ->
    exists u nv beta, calculate_householder v = Done (u, nv, beta) /\ length u = length v.
  Proof.
    destruct v as [|v0 tail]; [congruence|]. intros _. unfold calculate_householder. cbv zeta.
    destruct (neqb _ _); do 3 eexists; (split; [reflexivity|reflexivity]).
  Qed.

  Lemma apply_done m (x : list F) beta rows values : length x = m -> Forall (fun r => r < m) rows ->
    length values = length rows -> exists x', apply_householder x beta rows values = Done x' /\ length x' = m.
  Proof.
    intros Lx Fr Lv. rewrite Forall_forall in Fr. unfold apply_householder.
    destruct (ofold_ok (fun _ : F => True)
      (fun tau '(idx, row) => let! v := oget values idx in let! xr := oget x row in Done (nadd tau (nmul v xr)))
      (enumerate rows)) with (s := nzero : F) as (tau & -> & _).
    - intros s [k r] Hin _. apply enumerate_In in Hin. pose proof (nth_error_lt _ _ _ Hin) as Hk.
      destruct (oget_ok values k) as (v & ->); [lia|]. cbn [obind].
      destruct (oget_ok x r) as (xr & ->); [rewrite Lx; apply Fr; eapply nth_error_In; eauto|]. cbn [obind]. eauto.
    - exact I.
    - cbn [obind]. cbv zeta.
      match goal with |- exists x', ofold ?f _ _ = _ /\ _ => destruct (ofold_ok (fun x : list F => length x = m) f (enumerate rows)) with (s := x) as (x' & E & L) end.
      + intros s [k r] Hin Ls. apply enumerate_In in Hin. pose proof (nth_error_lt _ _ _ Hin) as Hk.
        assert (Hr : r < m) by (apply Fr; eapply nth_error_In; eauto).
        destruct (oget_ok values k) as (v & ->); [lia|]. cbn [obind].
        destruct (oget_ok s r) as (xr & ->); [lia|]. cbn [obind].
        rewrite oset_ok by lia. eexists. split; [reflexivity|]. now rewrite lset_length.
      + exact Lx.
      + eauto.
  Qed.

  Variables (s : structure) (sq : symbolic_qr) (rho : nat -> nat) (Rs Hs : list (list nat)).
  Hypothesis SO : symbolic_ok s sq rho Rs Hs.
  Let m := s_nrows s.
  Let n := s_ncols s.
  Variable a : matrix F.
  Hypothesis Es : m_structure a = s.
  Hypothesis Wa : well_formed_matrix a.

  Definition sized (q : qr F) : Prop :=
    length (qr_r_values q) = length (concat Rs) /\ length (qr_h_values q) = length (concat Hs) /\
    length (qr_betas q) = n.

  Lemma h_column j : j < n -> exists t, nth_error Hs j = Some (j :: t) /\ Forall (fun r => r < m) (j :: t) /\
    offset Hs (S j) = offset Hs j + S (length t) /\ offset Hs (S j) <= length (concat Hs).
  Proof.
    intros Hj. destruct (so_hcol _ _ _ _ _ SO j Hj) as (t & E & _ & Ft). exists t. split; [exact E|].
    pose proof (so_shape _ _ _ _ _ SO) as Hmn. fold m n in Hmn. split.
    { constructor; [lia|]. eapply Forall_impl; [|exact Ft]. cbn. intros r Hr. fold m in Hr. lia. }
    split; [now rewrite (offset_S _ _ _ E)|]. apply offset_total. apply nth_error_lt in E. lia.
  Qed.

  Lemma r_column j : j < n -> exists t, nth_error Rs j = Some (t ++ [j]) /\ Forall (fun r => r < j) t /\
    offset Rs (S j) = offset Rs j + S (length t) /\ offset Rs (S j) <= length (concat Rs).
  Proof.
    intros Hj. destruct (so_rcol _ _ _ _ _ SO j Hj) as (t & E & _ & Ft). exists t. split; [exact E|].
    split; [exact Ft|].
    split; [rewrite (offset_S _ _ _ E), app_length; cbn; lia|]. apply offset_total. apply nth_error_lt in E. lia.
  Qed.

  Lemma scatter_done j : j < n -> exists x, scatter sq a j = Done x /\ length x = m.
  Proof.
    intros Hj. unfold scatter. destruct (ordering_bound _ _ (so_ordering _ _ _ _ _ SO)) as (Lo & _ & Bo).
    fold n in Lo, Bo. unfold oget. destruct (nth_error_ex (sq_col_permutation sq) j) as (c & Hc); [lia|]. rewrite Hc. cbn [obind].
    destruct (column_done a c Wa) as (p & q & vs & rs & _ & _ & _ & _ & Ec & _ & _ & _ & Fr); [rewrite Es; now apply (Bo j)|].
    rewrite Ec. cbn [obind]. rewrite (so_h _ _ _ _ _ SO). cbn [layout s_nrows]. fold m.
    apply ofold_ok.
    - intros x [v r] Hin Lx. apply in_combine_r in Hin. rewrite Forall_forall in Fr. specialize (Fr _ Hin). rewrite Es in Fr.
      destruct (so_row _ _ _ _ _ SO r Fr) as [-> Hr]. cbn [obind]. fold m in Hr. rewrite oset_ok by lia.
      eexists. split; [reflexivity|]. now rewrite lset_length.
    - apply repeat_length.
  Qed.

  Lemma column_safe q j : j < n -> sized q -> exists q', factorize_column sq a q j = Done q' /\ sized q'.
  Proof.
    intros Hj (Lr & Lh & Lb). unfold factorize_column. destruct (scatter_done j Hj) as (x & -> & Lx). cbn [obind].
    destruct (r_column j Hj) as (t & ER & Ft & Or & Br). destruct (h_column j Hj) as (th & EH & Fh & Oh & Bh).
    rewrite (so_r _ _ _ _ _ SO), (layout_column _ _ _ _ ER). cbn [obind].
    assert (Lhs : length Hs = n) by exact (so_lh _ _ _ _ _ SO). assert (Lrs : length Rs = n) by exact (so_lr _ _ _ _ _ SO).
    destruct (ofold_ok (fun st : list F * list F => length (fst st) = m /\ length (snd st) = length (concat Rs))
      (reflect_entry sq (qr_h_values q) (qr_betas q) j) (enumerate (t ++ [j]))) with (s := (x, qr_r_values q)) as ((x1 & rv) & -> & L1 & Lrv).
    - intros [y rv] [k r] Hin [Ly Lrv]. cbn [fst snd] in *. apply enumerate_In in Hin. unfold reflect_entry.
      destruct (Nat.eqb_spec r j) as [->|Hne]; [eexists; split; [reflexivity|auto]|].
      pose proof (nth_error_lt _ _ _ Hin) as Hk. rewrite app_length in Hk. cbn in Hk.
      apply nth_error_In, in_app_or in Hin. destruct Hin as [Hin|[<-|[]]]; [|congruence].
      rewrite Forall_forall in Ft. pose proof (Ft _ Hin) as Hr. assert (Hrn : r < n) by lia.
      destruct (h_column r Hrn) as (tr & Er & Fr & Or' & Br').
      rewrite (so_h _ _ _ _ _ SO), (layout_pointer _ _ r), Nat.add_1_r, (layout_pointer _ _ (S r)) by lia. cbn [obind].
      destruct (oget_ok (qr_betas q) r) as (beta & ->); [lia|]. cbn [obind].
      rewrite (layout_column _ _ _ _ Er). cbn [obind].
      destruct (oslice_done (qr_h_values q) (offset Hs r) (offset Hs (S r))) as (hv & -> & Lhv); [lia|lia|]. cbn [obind].
      destruct (apply_done m y beta (r :: tr) hv Ly Fr) as (y' & -> & Ly'); [cbn [length]; lia|]. cbn [obind].
      rewrite (so_r _ _ _ _ _ SO), layout_pointer by lia. cbn [obind].
      assert (Hrm : r < m) by (rewrite Forall_forall in Fr; apply Fr; now left).
      destruct (oget_ok y' r) as (xr & ->); [lia|]. cbn [obind].
      rewrite oset_ok by lia. cbn [obind]. rewrite oset_ok by lia. cbn [obind].
      eexists. split; [reflexivity|]. cbn [fst snd]. rewrite !lset_length. auto.
    - cbn. auto.
    - cbn [obind fst snd] in *. rewrite (so_h _ _ _ _ _ SO), (layout_column _ _ _ _ EH). cbn [obind].
      rewrite (layout_pointer _ _ j), Nat.add_1_r, (layout_pointer _ _ (S j)) by lia. cbn [obind].
      destruct (ofold_ok (fun st : list F * list F => length (fst st) = m /\ length (snd st) = length (concat Hs))
        (gather_entry (offset Hs j)) (enumerate (j :: th))) with (s := (x1, qr_h_values q)) as ((x2 & hv) & -> & L2 & Lhv).
      + intros [y hv] [k r] Hin [Ly Lhv]. cbn [fst snd] in *. apply enumerate_In in Hin. unfold gather_entry.
        pose proof (nth_error_lt _ _ _ Hin) as Hk. cbn [length] in Hk. apply nth_error_In in Hin.
        rewrite Forall_forall in Fh. pose proof (Fh _ Hin) as Hr.
        destruct (oget_ok y r) as (xr & ->); [lia|]. cbn [obind].
        rewrite oset_ok by lia. cbn [obind]. rewrite oset_ok by lia. cbn [obind].
        eexists. split; [reflexivity|]. cbn [fst snd]. rewrite !lset_length. auto.
      + cbn. auto.
      + cbn [obind fst snd] in *.
        destruct (oslice_done hv (offset Hs j) (offset Hs (S j))) as (v & -> & Lv); [lia|lia|]. cbn [obind].
        destruct (householder_done v) as (u & nv & beta & -> & Lu); [intros ->; cbn [length] in Lv; clear - Lv Oh; lia|]. cbn [obind].
        rewrite oset_ok by lia. cbn [obind]. rewrite layout_pointer by lia. cbn [obind].
        unfold osub. destruct (Nat.leb_spec 1 (offset Rs (S j))); [|lia]. cbn [obind].
        rewrite oset_ok by lia. cbn [obind]. eexists. split; [reflexivity|].
        unfold sized. cbn [qr_r_values qr_h_values qr_betas]. rewrite !lset_length, !app_length, firstn_length, skipn_length.
        repeat split; try assumption. lia.
  Qed.

  Lemma factorize_safe : exists q, factorize sq a = Done q /\ sized q.
  Proof.
    unfold factorize. rewrite Es. fold n. apply ofold_ok.
    - intros q j Hin G. apply in_seq in Hin. apply column_safe; [lia|exact G].
    - unfold sized, qr_new. cbn [qr_r_values qr_h_values qr_betas].
      rewrite (so_r _ _ _ _ _ SO), (so_h _ _ _ _ _ SO). cbn [layout s_row_indices s_ncols].
      rewrite !repeat_length. repeat split. exact (so_lh _ _ _ _ _ SO).
  Qed.

  Lemma q_tr_mul_safe q b : sized q -> length b = m -> exists y, q_tr_mul sq q b = Done y /\ length y = m.
  Proof.
    intros (Lr & Lh & Lb) Lbm. unfold q_tr_mul. rewrite (so_h _ _ _ _ _ SO). cbn [layout s_nrows s_ncols].
    assert (Lhs : length Hs = n) by exact (so_lh _ _ _ _ _ SO).
    fold m. rewrite Lbm, Nat.eqb_refl. cbn [oassert obind].
    destruct (ofold_ok (fun y : list F => length y = m)
      (fun y i => let! p := permuted_row sq i in let! x := oget b i in oset y p x) (seq 0 m))
      with (s := repeat (nzero : F) m) as (y0 & -> & L0).
    - intros y i Hin Ly. apply in_seq in Hin. assert (Hi : i < m) by lia.
      destruct (so_row _ _ _ _ _ SO i Hi) as [-> Hr]. fold m in Hr. cbn [obind].
      destruct (oget_ok b i) as (xb & ->); [lia|]. cbn [obind]. rewrite oset_ok by lia.
      eexists. split; [reflexivity|]. now rewrite lset_length.
    - apply repeat_length.
    - cbn [obind]. apply ofold_ok; [|exact L0].
      intros y j Hin Ly. apply in_seq in Hin. assert (Hj : j < n) by lia.
      change (Structure m (length Hs) (concat Hs) (pointers_of (map (@length nat) Hs))) with (layout m Hs).
      rewrite layout_range by lia. cbn [obind].
      destruct (h_column j Hj) as (th & EH & Fh & Oh & Bh). rewrite (layout_column _ _ _ _ EH). cbn [obind].
      destruct (oget_ok (qr_betas q) j) as (beta & ->); [lia|]. cbn [obind].
      destruct (oslice_done (qr_h_values q) (offset Hs j) (offset Hs (S j))) as (hv & -> & Lhv); [lia|lia|]. cbn [obind].
      apply apply_done; [exact Ly|exact Fh|cbn [length]; lia].
  Qed.

  Lemma triangular_safe (r : list F) b : length r = length (concat Rs) -> length b = n ->
    exists ok b', solve_upper_triangular (Matrix (layout n Rs) r) b = Done (ok, b') /\ length b' = n.
  Proof.
    intros Lr Lb. unfold solve_upper_triangular. cbn [m_structure layout s_nrows]. rewrite Lb, Nat.eqb_refl. cbn [oassert obind].
    assert (Lrs : length Rs = n) by exact (so_lr _ _ _ _ _ SO).
    assert (G : forall is b, Forall (fun i => i < n) is -> length b = n -> exists ok b',
      triangular_rounds (Matrix (layout n Rs) r) is b = Done (ok, b') /\ length b' = n).
    { induction is as [|i is IH]; intros y Fi Ly; cbn [triangular_rounds]; [eauto|].
      pose proof (Forall_inv Fi) as Hi. pose proof (Forall_inv_tail Fi) as Fi'. cbn in Hi. unfold triangular_step.
      destruct (r_column i Hi) as (t & ER & Ft & Or & Br).
      unfold matrix_column. cbn [m_structure m_values]. rewrite layout_range by lia. cbn [obind].
      destruct (oslice_done r (offset Rs i) (offset Rs (S i))) as (vs & -> & Lv); [lia|lia|]. cbn [obind].
      cbn [layout s_row_indices]. rewrite (slice_concat _ _ _ ER). cbn [obind].
      assert (Edi : exists d, (match nlast (t ++ [i]) with
          Some r0 => if r0 =? i then ounwrap (nlast vs) else Done nzero | None => Done nzero end) = Done d).
      { destruct (nlast (t ++ [i])) as [r0|]; [|eauto]. destruct (r0 =? i); [|eauto].
        unfold nlast. destruct (nth_error_ex vs (length vs - 1)) as (d & ->); [lia|]. cbn. eauto. }
      destruct Edi as (d & ->). cbn [obind]. destruct (neqb d nzero).
      { cbn [obind]. eauto. }
      destruct (oget_ok y i) as (xi & ->); [lia|]. cbn [obind]. rewrite oset_ok by lia. cbn [obind].
      assert (B : forall es z, (forall v r, In (v, r) es -> r <= i) -> length z = n ->
        exists z', back_substitute i (ndiv xi d) es z = Done z' /\ length z' = n).
      { induction es as [|[v r0] es IHe]; intros z Hes Lz; cbn [back_substitute]; [eauto|].
        destruct (Nat.ltb_spec r0 i); [|eauto].
        destruct (oget_ok z r0) as (zr & ->); [lia|]. cbn [obind]. rewrite oset_ok by lia. cbn [obind].
        apply IHe; [intros; eapply Hes; right; eauto|now rewrite lset_length]. }
      destruct (B (combine vs (t ++ [i])) (lset y i (ndiv xi d))) as (z' & -> & Lz').
      { intros v r0 Hin. apply in_combine_r in Hin. apply in_app_or in Hin as [Hin|[<-|[]]]; [|lia].
        rewrite Forall_forall in Ft. specialize (Ft _ Hin). lia. }
      { now rewrite lset_length. }
      cbn [obind]. apply IH; assumption. }
    apply G; [|exact Lb]. apply Forall_forall. intros i Hin. apply in_rev, in_seq in Hin. lia.
  Qed.

  Lemma solve_safe b : length b = m ->
    exists ok x, obind (factorize sq a) (fun q => qr_solve sq q b) = Done (ok, x) /\ length x = m.
  Proof.
    intros Lb. destruct factorize_safe as (q & -> & G). cbn [obind]. unfold qr_solve.
    destruct (q_tr_mul_safe q b G Lb) as (y & -> & Ly). cbn [obind].
    pose proof (so_shape _ _ _ _ _ SO) as Hmn. fold m n in Hmn.
    rewrite (so_r _ _ _ _ _ SO). cbn [layout s_nrows]. fold n.
    destruct (oslice_done y 0 n) as (front & Ef & Lf); [lia|lia|]. rewrite Ef. cbn [obind].
    change (Structure n (length Rs) (concat Rs) (pointers_of (map (@length nat) Rs))) with (layout n Rs).
    destruct (triangular_safe (qr_r_values q) front) as (ok & z & -> & Lz); [apply G|lia|]. cbn [obind].
    destruct (so_inverse _ _ _ _ _ SO F (z ++ skipn n y)) as (x' & -> & Lx' & _).
    { rewrite app_length, skipn_length. fold m. lia. }
    cbn [obind]. eauto.
  Qed.
End Safe.
