(** What conversion, transposition and column permutation do to entries *)
From Coq Require Import List Arith Bool Lia Permutation Sorted.
From Verif Require Import Outcome Lib ModelSparse Spec_Sparse Proofs_Sparse Proofs_Convert.
Import ListNotations.

Lemma filter_perm {A} (f : A -> bool) l m : Permutation l m -> Permutation (filter f l) (filter f m).
Proof.
  induction 1 as [|x l m _ IH|x y l|l m n _ IH1 _ IH2]; cbn.
  - constructor.
  - destruct (f x); [now constructor|exact IH].
  - destruct (f x), (f y); try reflexivity. constructor.
  - now transitivity (filter f m).
Qed.

Lemma at_cell_perm {T} (l : list (nat * nat * T)) ts j i :
  Permutation l (map flip_cell ts) -> Permutation (at_cell l j i) (values_at ts i j).
Proof.
  intros P. unfold at_cell. rewrite (filter_perm _ _ _ P). clear P.
  unfold values_at. induction ts as [|[[r c] v] ts IH]; cbn; [constructor|].
  unfold same. cbn. destruct ((r =? i) && (c =? j)); cbn; [now constructor|exact IH].
Qed.

Lemma fold_add_comm {T} (add : T -> T -> T) (Hc : forall x y, add x y = add y x)
  (Ha : forall x y z, add x (add y z) = add (add x y) z) vs u v :
  fold_left add vs (add u v) = add u (fold_left add vs v).
Proof.
  revert u v; induction vs as [|w vs IH]; intros u v; cbn; [reflexivity|].
  rewrite <- Ha. apply IH.
Qed.

Lemma total_perm {T} (add : T -> T -> T) (Hc : forall x y, add x y = add y x)
  (Ha : forall x y z, add x (add y z) = add (add x y) z) l m :
  Permutation l m -> total add l = total add m.
Proof.
  assert (E : forall v l, total add (v :: l) = match total add l with None => Some v | Some s => Some (add v s) end).
  { intros v l'. destruct l' as [|w l']; cbn; [reflexivity|]. now rewrite fold_add_comm. }
  induction 1 as [|x l m _ IH|x y l|l m n _ IH1 _ IH2].
  - reflexivity.
  - now rewrite !E, IH.
  - rewrite !E. destruct (total add l) as [s|]; f_equal; [|apply Hc].
    now rewrite !Ha, (Hc y x).
  - congruence.
Qed.

Lemma convert_spec {T} (add : T -> T -> T) sort a ts :
  sorting sort -> holds a ts ->
  exists m, from_triplet_mat add sort a = Done m /\ well_formed_matrix m /\
    shape (m_structure m) = (t_nrows a, t_ncols a) /\
    (forall i j, structural (m_structure m) i j <-> exists v, In (i, j, v) ts) /\
    (forall i j, exists vs, Permutation vs (values_at ts i j) /\
       forall v, entry m i j v <-> total add vs = Some v).
Proof.
  intros Hsort Hh. apply holds_contents in Hh.
  destruct (from_triplet_mat_csc add sort a ts Hsort Hh) as (srt & P & Hs & C & E).
  destruct (group_gathered add srt Hs) as (Gs & Gk & Gv).
  eexists. split; [exact E|]. split; [now apply csc_wf|]. split; [reflexivity|]. split.
  - intros i j. rewrite csc_structural by assumption. split.
    + intros [v Hv]. destruct (Gk _ Hv) as (x & Hx & E1 & E2). cbn in E1, E2.
      apply (Permutation_in _ P), in_map_iff in Hx. destruct Hx as ([[r c] w] & <- & Hx).
      cbn in E1, E2. subst. eauto.
    + intros [v Hv].
      assert (Hx : In (j, i, v) srt).
      { apply (Permutation_in _ (Permutation_sym P)), in_map_iff. now exists (i, j, v). }
      assert (Hy : In v (at_cell srt j i)).
      { apply in_map_iff. exists (j, i, v). split; [reflexivity|].
        apply filter_In. split; [exact Hx|]. unfold same. cbn. now rewrite !Nat.eqb_refl. }
      destruct (at_cell srt j i) as [|u us] eqn:Eu; [destruct Hy|].
      exists (fold_left add us u). apply Gv. now rewrite Eu.
  - intros i j. exists (at_cell srt j i). split; [now apply at_cell_perm|].
    intros v. now rewrite csc_entry by assumption.
Qed.

(* ----- transposition ----- *)

Lemma contents_transpose {T} (a : triplet_mat T) l :
  contents a l -> contents (triplet_transpose a) (map (fun '(i, j, v) => (j, i, v)) l).
Proof.
  intros [H1 H2 H3 H4]. constructor; cbn; rewrite ?map_map.
  - rewrite H2. apply map_ext. now intros [[i j] v].
  - rewrite H1. apply map_ext. now intros [[i j] v].
  - rewrite H3. apply map_ext. now intros [[i j] v].
  - apply Forall_forall. intros t Ht. apply in_map_iff in Ht. destruct Ht as ([[i j] v] & <- & Ht).
    rewrite Forall_forall in H4. specialize (H4 _ Ht). cbn in *. tauto.
Qed.

Lemma filter_none {A} (f : A -> bool) l : Forall (fun x => f x = false) l -> filter f l = [].
Proof. induction 1 as [|x l H _ IH]; cbn; [reflexivity|]. now rewrite H. Qed.

Lemma filter_all {A} (f : A -> bool) l : Forall (fun x => f x = true) l -> filter f l = l.
Proof. induction 1 as [|x l H _ IH]; cbn; [reflexivity|]. now rewrite H, IH. Qed.

Lemma filter_split {A} (key : A -> nat) l j :
  nondecreasing key l ->
  filter (fun x => key x <? S j) l = filter (fun x => key x <? j) l ++ filter (fun x => key x =? j) l /\
  filter (fun x => j <=? key x) l = filter (fun x => key x =? j) l ++ filter (fun x => S j <=? key x) l.
Proof.
  induction 1 as [|x l Hs [IH1 IH2] F]; [split; reflexivity|].
  assert (G : forall c, c <= key x -> Forall (fun y => c <= key y) l).
  { intros c Hc. eapply Forall_impl; [|exact F]. cbn. intros; lia. }
  cbn [filter].
  destruct (Nat.lt_trichotomy (key x) j) as [Hx|[Hx|Hx]].
  - destruct (Nat.ltb_spec (key x) j); [|lia]. destruct (Nat.ltb_spec (key x) (S j)); [|lia].
    destruct (Nat.eqb_spec (key x) j); [lia|]. destruct (Nat.leb_spec j (key x)); [lia|].
    destruct (Nat.leb_spec (S j) (key x)); [lia|]. cbn [app]. split; [now f_equal|exact IH2].
  - destruct (Nat.ltb_spec (key x) j); [lia|]. destruct (Nat.ltb_spec (key x) (S j)); [|lia].
    destruct (Nat.eqb_spec (key x) j); [|lia]. destruct (Nat.leb_spec j (key x)); [|lia].
    destruct (Nat.leb_spec (S j) (key x)); [lia|].
    assert (Z : filter (fun y => key y <? j) l = []).
    { apply filter_none. eapply Forall_impl; [|apply (G j); lia]. intros y Hy. apply Nat.ltb_ge. exact Hy. }
    rewrite Z in *.
    cbn [app] in *. split; f_equal; assumption.
  - destruct (Nat.ltb_spec (key x) j); [lia|]. destruct (Nat.ltb_spec (key x) (S j)); [lia|].
    destruct (Nat.eqb_spec (key x) j); [lia|]. destruct (Nat.leb_spec j (key x)); [|lia].
    destruct (Nat.leb_spec (S j) (key x)); [|lia].
    split; [exact IH1|].
    assert (Z : filter (fun y => key y =? j) l = []).
    { apply filter_none. eapply Forall_impl; [|apply (G (S j)); lia]. intros y Hy. apply Nat.eqb_neq. cbn in Hy. lia. }
    rewrite Z in *.
    cbn [app] in *. f_equal; assumption.
Qed.

Section Transpose.
  Context {T : Type}.
  Notation cell := (nat * nat * T)%type.

  (** [(col, row, v)] as a triplet *)
  Definition unflip (t : cell) : nat * nat * T := let '(j, i, v) := t in (i, j, v).

  Lemma push_column j (C : list cell) t done vs :
    Forall (fun x => cell_col x = j) C ->
    Forall (fun x => cell_row x < t_nrows t /\ cell_col x < t_ncols t) C ->
    contents t done ->
    exists t',
      ofold (fun '(t, vs) i => match vs with [] => Panic | v :: vs => Done (push_triplet i j v t, vs) end)
        (map cell_row C) (t, map snd C ++ vs) = Done (t', vs) /\
      contents t' (done ++ map unflip C) /\ t_nrows t' = t_nrows t /\ t_ncols t' = t_ncols t.
  Proof.
    intros F B H. revert t done B H. induction F as [|[[c r] v] C Hc F IH]; intros t done B H.
    - exists t. cbn. rewrite app_nil_r. auto.
    - inversion B as [|? ? Hb B']; subst. cbn in Hb. cbn [map app ofold obind snd cell_row cell_col fst].
      destruct (IH (push_triplet r c v t) (done ++ [(r, c, v)])) as (t' & E & Ht & Hr & Hcl).
      + eapply Forall_impl; [|exact B']. cbn. intros; lia.
      + now apply contents_push.
      + exists t'. split; [exact E|]. rewrite <- app_assoc in Ht. cbn in Ht, Hr, Hcl.
        split; [exact Ht|]. lia.
  Qed.

  Lemma push_all nrows ncols (L : list cell) :
    cells nrows ncols L ->
    exists t, ofold (transpose_push (m_structure (csc nrows ncols L))) (seq 0 ncols)
        (triplet_new nrows ncols, map snd L) = Done (t, []) /\
      contents t (map unflip L) /\ t_nrows t = nrows /\ t_ncols t = ncols.
  Proof.
    intros C. pose proof (sorted_cols _ (ce_sorted _ _ _ C)) as Hs.
    assert (G : forall n, n <= ncols ->
      exists t, ofold (transpose_push (m_structure (csc nrows ncols L))) (seq 0 n)
          (triplet_new nrows ncols, map snd L) = Done (t, map snd (filter (fun x => n <=? cell_col x) L)) /\
        contents t (map unflip (filter (fun x => cell_col x <? n) L)) /\ t_nrows t = nrows /\ t_ncols t = ncols).
    { induction n as [|n IH]; intros Hn.
      - exists (triplet_new nrows ncols). cbn [seq ofold].
        rewrite (filter_all (fun x => 0 <=? cell_col x)) by (apply Forall_forall; reflexivity).
        rewrite (filter_none (fun x => cell_col x <? 0)) by (apply Forall_forall; reflexivity).
        split; [reflexivity|]. split; [constructor; cbn; auto|auto].
      - destruct IH as (t & E & Ht & Hr & Hc); [lia|].
        rewrite seq_S, ofold_app, E. cbn [obind ofold Nat.add].
        unfold transpose_push at 1. rewrite csc_structure_column by (assumption || lia). cbn [obind].
        destruct (filter_split cell_col L n Hs) as [F1 F2]. rewrite F2, map_app.
        destruct (push_column n (filter (fun x => cell_col x =? n) L) t (map unflip (filter (fun x => cell_col x <? n) L))
                    (map snd (filter (fun x => S n <=? cell_col x) L))) as (t' & E' & Ht' & Hr' & Hc').
        + apply Forall_forall. intros x Hx. apply filter_In in Hx. destruct Hx as [_ Hx]. now apply Nat.eqb_eq.
        + apply Forall_forall. intros x Hx. apply filter_In in Hx. destruct Hx as [Hx _].
          pose proof (ce_bound _ _ _ C) as B. rewrite Forall_forall in B. rewrite Hr, Hc. now apply B.
        + exact Ht.
        + rewrite E'. cbn [obind]. exists t'. split; [reflexivity|].
          rewrite F1, map_app. split; [exact Ht'|]. split; congruence. }
    destruct (G ncols (le_n _)) as (t & E & Ht & Hr & Hc). exists t.
    rewrite (filter_none (fun x => ncols <=? cell_col x)) in E.
    2:{ eapply Forall_impl; [|exact (ce_bound _ _ _ C)]. cbn. intros; apply Nat.leb_gt; lia. }
    rewrite (filter_all (fun x => cell_col x <? ncols)) in Ht.
    2:{ eapply Forall_impl; [|exact (ce_bound _ _ _ C)]. cbn. intros; apply Nat.ltb_lt; lia. }
    auto.
  Qed.

  Lemma nodup_keys (L : list cell) : StronglySorted cell_lt L -> NoDup (map fst L).
  Proof.
    induction 1 as [|x L _ IH F]; cbn; constructor; auto.
    intros H. apply in_map_iff in H. destruct H as (y & E & Hy).
    rewrite Forall_forall in F. specialize (F y Hy). unfold cell_lt, cell_col, cell_row in F. rewrite E in F. lia.
  Qed.

  Lemma nodup_sorted (L : list cell) :
    StronglySorted cell_le L -> NoDup (map fst L) -> StronglySorted cell_lt L.
  Proof.
    induction 1 as [|x L _ IH F]; cbn; intros N; constructor; inversion N as [|? ? Hx N']; subst; auto.
    rewrite Forall_forall in *. intros y Hy. specialize (F y Hy).
    assert (fst x <> fst y).
    { intros E. apply Hx. rewrite E. now apply in_map. }
    destruct x as [[c r] v], y as [[c' r'] v']. unfold cell_le, cell_lt in *. cbn in *.
    destruct (Nat.eq_dec c c') as [->|]; [|lia]. destruct (Nat.eq_dec r r') as [->|]; [congruence|lia].
  Qed.

  Definition swap_cell (t : cell) : cell := let '(j, i, v) := t in (i, j, v).

  Lemma transpose_csc add sort nrows ncols (L : list cell) :
    sorting sort -> cells nrows ncols L ->
    exists L', matrix_transpose add sort (csc nrows ncols L) = Done (csc ncols nrows L') /\
      cells ncols nrows L' /\ Permutation L' (map swap_cell L).
  Proof.
    intros Hsort C. unfold matrix_transpose, transpose_with_values.
    change (s_ncols (m_structure (csc nrows ncols L))) with ncols.
    change (s_nrows (m_structure (csc nrows ncols L))) with nrows.
    change (m_values (csc nrows ncols L)) with (map snd L).
    destruct (push_all nrows ncols L C) as (t & E & Ht & Hr & Hc). rewrite E. cbn [obind].
    apply contents_transpose in Ht.
    destruct (from_triplet_mat_csc add sort _ _ Hsort Ht) as (srt & P & Hs & C' & E').
    assert (P' : Permutation srt (map swap_cell L)).
    { rewrite P, !map_map. erewrite map_ext; [reflexivity|]. now intros [[j i] v]. }
    assert (Hlt : StronglySorted cell_lt srt).
    { apply nodup_sorted; [exact Hs|].
      eapply Permutation_NoDup; [apply Permutation_sym, Permutation_map, P'|].
      rewrite map_map.
      pose proof (nodup_keys L (ce_sorted _ _ _ C)) as N.
      apply (FinFun.Injective_map_NoDup (f := fun k : nat * nat => (snd k, fst k))) in N.
      - rewrite map_map in N. erewrite map_ext; [exact N|]. now intros [[j i] v].
      - intros [a b] [a' b']. cbn. congruence. }
    rewrite (group_id add srt Hlt) in *. cbn [triplet_transpose t_nrows t_ncols] in *. rewrite Hr, Hc in *.
    exists srt. auto.
  Qed.

  Lemma transpose_spec add sort (m : matrix T) :
    sorting sort -> well_formed_matrix m ->
    exists m', matrix_transpose add sort m = Done m' /\ well_formed_matrix m' /\
      shape (m_structure m') = (s_ncols (m_structure m), s_nrows (m_structure m)) /\
      (forall i j v, entry m' i j v <-> entry m j i v) /\
      (forall i j, structural (m_structure m') i j <-> structural (m_structure m) j i) /\
      matrix_transpose add sort m' = Done m.
  Proof.
    intros Hsort W. destruct (csc_of m W) as (L & C & E).
    set (nrows := s_nrows (m_structure m)) in *. set (ncols := s_ncols (m_structure m)) in *.
    assert (Sw : forall (l : list cell) i j v, In (i, j, v) (map swap_cell l) <-> In (j, i, v) l).
    { intros l i j v. split.
      - intros H. apply in_map_iff in H. destruct H as ([[c r] w] & X & H). cbn in X. congruence.
      - intros H. apply in_map_iff. now exists (j, i, v). }
    destruct (transpose_csc add sort nrows ncols L Hsort C) as (L' & E' & C' & P').
    rewrite <- E in E'. exists (csc ncols nrows L'). split; [exact E'|].
    split; [now apply csc_wf|]. split; [reflexivity|].
    assert (In' : forall i j v, In (i, j, v) L' <-> In (j, i, v) L).
    { intros i j v. rewrite <- (Sw L i j v). split; apply Permutation_in; [exact P'|now apply Permutation_sym]. }
    split; [|split].
    - intros i j v. rewrite E, !csc_entry by assumption. now rewrite In'.
    - intros i j. rewrite E, !csc_structural by assumption. split; intros [v H]; exists v; now apply In'.
    - destruct (transpose_csc add sort ncols nrows L' Hsort C') as (L'' & E'' & C'' & P'').
      rewrite E''. f_equal. rewrite E. f_equal. apply cells_unique; [apply C''|apply C|].
      intros [[j i] v].
      split; intros H.
      + apply In', Sw. apply (Permutation_in _ P''). exact H.
      + apply (Permutation_in _ (Permutation_sym P'')), Sw. now apply In'.
  Qed.
End Transpose.

Lemma unit_values (l : list unit) : l = repeat tt (length l).
Proof. induction l as [|[] l IH]; cbn; congruence. Qed.

Lemma unit_matrix s : well_formed s -> well_formed_matrix (Matrix s (repeat tt (length (s_row_indices s)))).
Proof. intros W. constructor; [exact W|]. cbn. apply repeat_length. Qed.

Lemma structure_transpose_spec sort s :
  sorting sort -> well_formed s ->
  exists s', structure_transpose sort s = Done s' /\ well_formed s' /\
    shape s' = (s_ncols s, s_nrows s) /\
    (forall i j, structural s' i j <-> structural s j i) /\
    structure_transpose sort s' = Done s.
Proof.
  intros Hsort W.
  destruct (transpose_spec (fun _ _ => tt) sort _ Hsort (unit_matrix s W))
    as (m' & E & W' & Hsh & _ & Hst & Einv).
  exists (m_structure m'). unfold structure_transpose.
  unfold matrix_transpose in E, Einv. cbn [m_structure m_values] in E. rewrite E. cbn [obind].
  split; [reflexivity|]. split; [apply W'|]. split; [exact Hsh|]. split; [exact Hst|].
  rewrite <- (wfm_values _ W'), <- unit_values, Einv. reflexivity.
Qed.

(* ----- column permutation ----- *)

Lemma last_map_seq (f : nat -> nat) n : last (map f (seq 0 (n + 1))) 0 = f n.
Proof. rewrite Nat.add_1_r, seq_S, map_app. cbn. apply last_last. Qed.

Lemma permute_spec {T} s p (vals : list T) :
  well_formed s -> length vals = length (s_row_indices s) -> Forall (fun j => j < s_ncols s) p ->
  exists m, permute_columns_with_values s p vals = Done m /\
    well_formed (m_structure m) /\ shape (m_structure m) = (s_nrows s, length p) /\
    (forall i k, structural (m_structure m) i k <-> exists j, nth_error p k = Some j /\ structural s i j).
Proof.
  intros W Hv F.
  destruct (csc_of _ (unit_matrix s W)) as (L & C & E). cbn [m_structure] in *.
  assert (Es : s = m_structure (csc (s_nrows s) (s_ncols s) L)) by (now rewrite <- E).
  set (nrows := s_nrows s) in *. set (ncols := s_ncols s) in *.
  clearbody nrows ncols. clear E.
  unfold permute_columns_with_values. rewrite Hv, Nat.eqb_refl. cbn [oassert obind].
  assert (G : forall pre suf, p = pre ++ suf ->
    exists L' vs', ofold (permute_step s vals) pre ([], [0], []) =
      Done (map cell_row L', map (fun c => below cell_col c L') (seq 0 (length pre + 1)), vs') /\
      @cells unit nrows (length pre) L' /\
      (forall i k, (exists v, In (k, i, v) L') <-> exists j, nth_error pre k = Some j /\ structural s i j)).
  { induction pre as [|j pre IH] using rev_ind; intros suf Ep.
    - exists [], []. split; [reflexivity|]. split; [repeat constructor|].
      intros i k. split; [intros [v []]|]. intros (j & H & _). destruct k; discriminate.
    - destruct (IH (j :: suf)) as (L' & vs' & E' & C' & H'); [now rewrite <- app_assoc in Ep|].
      rewrite ofold_app, E'. cbn [obind ofold permute_step].
      assert (Hj : j < ncols).
      { rewrite Forall_forall in F. apply F. rewrite Ep. apply in_or_app. left. apply in_or_app. right. now left. }
      assert (Ecol : index_column s j = Done (map cell_row (filter (fun t => cell_col t =? j) L))).
      { rewrite Es. apply csc_structure_column; assumption. }
      rewrite Ecol. cbn [obind].
      set (Cj := filter (fun t => cell_col t =? j) L).
      set (k := length pre) in *.
      set (N := map (fun t : nat * nat * unit => (k, cell_row t, tt)) Cj).
      assert (HN : forall y, In y N -> cell_col y = k /\ exists v, In (j, cell_row y, v) L).
      { intros y Hy. apply in_map_iff in Hy. destruct Hy as ([[c r] v] & <- & Hy). split; [reflexivity|].
        apply filter_In in Hy. cbn in Hy. destruct Hy as [Hy Ec]. apply Nat.eqb_eq in Ec. subst c. exists v. exact Hy. }
      assert (HN' : forall i v, In (j, i, v) L -> In (k, i, tt) N).
      { intros i v Hy. apply in_map_iff. exists (j, i, v). split; [reflexivity|].
        apply filter_In. split; [exact Hy|]. cbn. apply Nat.eqb_refl. }
      exists (L' ++ N), (vs' ++ vals). split; [|split].
      + rewrite last_map_seq. unfold k at 2. do 3 f_equal.
        * rewrite map_app. f_equal. unfold N. rewrite map_map. reflexivity.
        * rewrite app_length. cbn [length]. replace (length pre + 1 + 1) with (S (k + 1)) by (unfold k; lia).
          rewrite seq_S, map_app. cbn [map Nat.add]. f_equal.
          -- apply map_ext_in. intros c Hc. apply in_seq in Hc. rewrite below_app.
             rewrite (below_zero cell_col c N); [lia|]. apply Forall_forall. intros y Hy.
             destruct (HN y Hy) as [-> _]. lia.
          -- f_equal. rewrite below_app. replace (k + 1) with (S k) by lia.
             rewrite (below_all cell_col (S k) N).
             2:{ apply Forall_forall. intros y Hy. destruct (HN y Hy) as [-> _]. lia. }
             unfold N. rewrite !map_length. f_equal.
             rewrite !below_all; [reflexivity| |].
             ++ eapply Forall_impl; [|exact (ce_bound _ _ _ C')]. cbn. fold k. intros; lia.
             ++ eapply Forall_impl; [|exact (ce_bound _ _ _ C')]. cbn. fold k. intros; lia.
      + rewrite app_length. cbn [length]. fold k. constructor.
        * apply strongly_intro. intros x y a b Ha Hb Hxy.
          destruct (le_lt_dec (length L') x) as [Hx|Hx].
          -- (* both in the new column *)
             rewrite nth_error_app2 in Ha by lia. rewrite nth_error_app2 in Hb by lia.
             unfold N in Ha, Hb. rewrite nth_error_map in Ha, Hb.
             destruct (nth_error Cj (x - length L')) as [a'|] eqn:Ea; [|discriminate].
             destruct (nth_error Cj (y - length L')) as [b'|] eqn:Eb; [|discriminate].
             cbn in Ha, Hb. injection Ha as <-. injection Hb as <-.
             assert (Hs : StronglySorted cell_lt Cj).
             { unfold Cj. clear -C. destruct C as [Hs _]. induction Hs as [|z l _ IH G]; cbn; [constructor|].
               destruct (cell_col z =? j); [|exact IH]. constructor; [exact IH|].
               rewrite Forall_forall in *. intros w Hw. apply filter_In in Hw. now apply G. }
             pose proof (strongly_nth _ _ _ _ _ _ Hs Ea Eb ltac:(lia)) as G.
             apply nth_error_In, filter_In in Ea. apply nth_error_In, filter_In in Eb.
             destruct Ea as [_ Ea], Eb as [_ Eb]. apply Nat.eqb_eq in Ea, Eb.
             right. split; [reflexivity|]. unfold cell_lt in G. change (cell_row a' < cell_row b'). lia.
          -- rewrite nth_error_app1 in Ha by lia.
             destruct (le_lt_dec (length L') y) as [Hy|Hy].
             ++ rewrite nth_error_app2 in Hb by lia. apply nth_error_In in Hb. destruct (HN _ Hb) as [Eb _].
                pose proof (ce_bound _ _ _ C') as B. rewrite Forall_forall in B.
                specialize (B _ (nth_error_In _ _ Ha)). left. fold k in B. lia.
             ++ rewrite nth_error_app1 in Hb by lia.
                exact (strongly_nth _ _ _ _ _ _ (ce_sorted _ _ _ C') Ha Hb Hxy).
        * apply Forall_app. split.
          -- eapply Forall_impl; [|exact (ce_bound _ _ _ C')]. cbn. fold k. intros; lia.
          -- apply Forall_forall. intros y Hy. destruct (HN y Hy) as [-> [v Hin]]. split; [|lia].
             pose proof (ce_bound _ _ _ C) as B. rewrite Forall_forall in B. apply (B _ Hin).
      + intros i c. split.
        * intros [v Hv']. apply in_app_or in Hv'. destruct Hv' as [Hv'|Hv'].
          -- destruct (proj1 (H' i c) (ex_intro _ v Hv')) as (j' & Hj' & Hst).
             exists j'. split; [now apply nth_error_app_old|exact Hst].
          -- destruct (HN _ Hv') as [Ec [w Hw]]. cbn in Ec. subst c. exists j.
             split; [apply nth_error_app_new|]. rewrite Es. apply csc_structural; [exact C|].
             exists w. exact Hw.
        * intros (j' & Hj' & Hst). apply nth_error_snoc in Hj'.
          destruct Hj' as [[_ Hj']|[Hc ->]].
          -- destruct (proj2 (H' i c) (ex_intro _ j' (conj Hj' Hst))) as [v Hv']. exists v. apply in_or_app. now left.
          -- rewrite Es in Hst. apply csc_structural in Hst; [|exact C]. destruct Hst as [w Hw].
             exists tt. apply in_or_app. right. subst c. now apply HN' with w. }
  destruct (G p []) as (L' & vs' & E' & C' & H'); [now rewrite app_nil_r|].
  rewrite E'. cbn [obind]. eexists. split; [reflexivity|]. cbn [m_structure].
  assert (En : s_nrows s = nrows) by (now rewrite Es). rewrite En.
  pose proof (csc_wf _ _ _ C') as W'.
  split; [exact (wfm_structure _ W')|]. split; [reflexivity|].
  intros i k. rewrite <- H'. exact (csc_structural _ _ L' i k C').
Qed.
