(** What is refused before the ordering begins, and the notice of unsorted columns
    (colamd.rs 368-443, 502-576) *)
From Coq Require Import List Arith ZArith Lia Bool Permutation.
From Verif Require Import Outcome Lib ModelColamd Spec_Colamd Spec_Symamd Proofs_Zlist Proofs_Order Proofs_Colamd.
From Verif Require Proofs_Init.
Import ListNotations.
Local Open Scope Z_scope.

Lemma find_first {A} (f : A -> bool) l x : find f l = Some x -> exists pre post, l = pre ++ x :: post /\ f x = true /\ forall y, In y pre -> f y = false.
Proof.
  induction l as [|y l IH]; intros H; cbn in H; [discriminate|]. destruct (f y) eqn:E.
  - injection H as ->. exists [], l. repeat split; auto. intros ? [].
  - destruct (IH H) as (pre & post & -> & Fx & G). exists (y :: pre), post. repeat split; auto. intros z [<-|Hz]; auto.
Qed.

Section Validate.
  Variables n_row n_col : Z.
  Hypothesis r0 : 0 <= n_row.
  Hypothesis n0 : 0 <= n_col.
  Variables rows p : list Z.
  Hypothesis Lp : zlen p = n_col + 1.
  Notation pt := (element p).

  Lemma pointer_get c : 0 <= c <= n_col -> zget p c = Done (pt c).
  Proof. intros H. rewrite (zget_ok 0) by lia. now rewrite element_znth by lia. Qed.

  (** The first column of negative length *)
  Definition falls_at (c : Z) : Prop := 0 <= c < n_col /\ pt (c + 1) < pt c /\ forall c', 0 <= c' < c -> pt c' <= pt (c' + 1).
  Definition all_up : Prop := forall c, 0 <= c < n_col -> pt c <= pt (c + 1).
  Lemma negative_column_cases :
    (exists c, falls_at c /\ negative_column p (zrange 0 n_col) = Done (Some (ColumnWithNegativeEntries c (pt (c + 1) - pt c)))) \/
    (all_up /\ negative_column p (zrange 0 n_col) = Done None).
  Proof.
    assert (G : forall k c, 0 <= c -> c + Z.of_nat k = n_col -> (forall c', 0 <= c' < c -> pt c' <= pt (c' + 1)) ->
      (exists d, falls_at d /\ negative_column p (zrange c n_col) = Done (Some (ColumnWithNegativeEntries d (pt (d + 1) - pt d)))) \/
      (all_up /\ negative_column p (zrange c n_col) = Done None)).
    { induction k as [|k IH]; intros c Hc E Up.
      - right. rewrite zrange_nil by lia. split; [|reflexivity]. intros d Hd. apply Up. lia.
      - rewrite zrange_cons by lia. cbn [negative_column]. rewrite pointer_get by lia. cbn [obind]. rewrite pointer_get by lia. cbn [obind].
        destruct (Z.ltb_spec (pt (c + 1) - pt c) 0) as [N|N].
        + left. exists c. split; [|reflexivity]. split; [lia|]. split; [lia|exact Up].
        + apply IH; [lia|lia|]. intros d Hd. destruct (Z.eq_dec d c) as [-> |]; [lia|]. apply Up. lia. }
    apply (G (Z.to_nat n_col) 0); [lia|lia|]. intros; lia.
  Qed.

  Hypothesis p0 : pt 0 = 0.
  Lemma up_mono : all_up -> forall c c', 0 <= c <= c' -> c' <= n_col -> pt c <= pt c'.
  Proof.
    intros Up c c' H H'. assert (G : forall k, c + Z.of_nat k <= n_col -> pt c <= pt (c + Z.of_nat k)).
    { induction k as [|k IH]; intros L; [rewrite Z.add_0_r; lia|]. specialize (IH ltac:(lia)). pose proof (Up (c + Z.of_nat k) ltac:(lia)).
      replace (c + Z.of_nat (S k)) with (c + Z.of_nat k + 1) by lia. lia. }
    specialize (G (Z.to_nat (c' - c))). replace (c + Z.of_nat (Z.to_nat (c' - c))) with c' in G by lia. auto.
  Qed.

  (** The words [A] that are searched *)
  Variable na : Z.
  Hypothesis Hna : pt n_col <= na <= zlen rows.
  Notation A := (firstn (Z.to_nat na) rows).
  Lemma slice_entries c : all_up -> 0 <= c < n_col -> column_slice A p c = Done (entries rows p c).
  Proof.
    intros Up Hc. unfold column_slice. rewrite pointer_get by lia. cbn [obind]. rewrite pointer_get by lia. cbn [obind].
    pose proof (up_mono Up 0 c ltac:(lia) ltac:(lia)) as M1. rewrite p0 in M1. pose proof (up_mono Up c (c + 1) ltac:(lia) ltac:(lia)) as M2.
    pose proof (up_mono Up (c + 1) n_col ltac:(lia) ltac:(lia)) as M3. unfold zlen in *.
    destruct (Z.ltb_spec (pt c) 0), (Z.ltb_spec (pt (c + 1)) (pt c)), (Z.ltb_spec (Z.of_nat (length A)) (pt (c + 1))); try lia; try (rewrite firstn_length in *; lia).
    cbn [orb]. f_equal. unfold entries, zrange. rewrite map_map. apply (nth_ext _ _ 0 0).
    - rewrite firstn_length, skipn_length, firstn_length, map_length, seq_length. lia.
    - intros i Hi. rewrite firstn_length, skipn_length, firstn_length in Hi. rewrite Proofs_Init.nth_firstn_lt by lia. rewrite Proofs_Init.nth_skipn_plus.
      rewrite Proofs_Init.nth_firstn_lt by lia. rewrite (nth_indep (map _ _) 0 (element rows (pt c + Z.of_nat 0))) by (rewrite map_length, seq_length; lia).
      rewrite (map_nth (fun x => element rows (pt c + Z.of_nat x))). rewrite seq_nth by lia. set (q := pt c) in *. clearbody q. unfold element. f_equal. lia.
  Qed.
  Definition in_rows (i : Z) : Prop := 0 <= element rows i < n_row.
  (** The first index out of range *)
  Definition strays_at (c i : Z) : Prop := 0 <= c < n_col /\ pt c <= i < pt (c + 1) /\ ~ in_rows i /\ forall i', 0 <= i' < i -> in_rows i'.
  Definition all_in_rows : Prop := forall i, 0 <= i < pt n_col -> in_rows i.
  Lemma bad_entry_cases : all_up ->
    (exists c i, strays_at c i /\ bad_entry A p n_row (zrange 0 n_col) = Done (Some (RowIndexOutOfBounds c (element rows i) n_row))) \/
    (all_in_rows /\ bad_entry A p n_row (zrange 0 n_col) = Done None).
  Proof.
    intros Up. assert (G : forall k c, 0 <= c -> c + Z.of_nat k = n_col -> (forall i, 0 <= i < pt c -> in_rows i) ->
      (exists d i, strays_at d i /\ bad_entry A p n_row (zrange c n_col) = Done (Some (RowIndexOutOfBounds d (element rows i) n_row))) \/
      (all_in_rows /\ bad_entry A p n_row (zrange c n_col) = Done None)).
    { induction k as [|k IH]; intros c Hc E In.
      - right. rewrite zrange_nil by lia. split; [|reflexivity]. replace c with n_col in In by lia. exact In.
      - rewrite zrange_cons by lia. cbn [bad_entry]. rewrite (slice_entries c Up) by lia. cbn [obind]. unfold bad_row.
        pose proof (up_mono Up 0 c ltac:(lia) ltac:(lia)) as M1. rewrite p0 in M1. pose proof (Up c ltac:(lia)) as M2.
        destruct (find (fun row => (row <? 0) || (n_row <=? row)) (entries rows p c)) as [x|] eqn:F.
        + left. apply find_first in F. destruct F as (pre & post & F & Fx & Fp).
          assert (Len : (length pre < Z.to_nat (pt (c + 1) - pt c))%nat).
          { pose proof (f_equal (@length Z) F) as X. unfold entries in X. rewrite map_length, zrange_length, app_length in X. cbn in X. lia. }
          assert (At : forall k, (k < Z.to_nat (pt (c + 1) - pt c))%nat -> nth k (entries rows p c) 0 = element rows (pt c + Z.of_nat k)).
          { intros i Hi. unfold entries, zrange. rewrite map_map. rewrite (nth_indep _ 0 (element rows (pt c + Z.of_nat 0))) by (rewrite map_length, seq_length; lia).
            rewrite (map_nth (fun x => element rows (pt c + Z.of_nat x))). rewrite seq_nth by lia. reflexivity. }
          exists c, (pt c + Z.of_nat (length pre)). assert (Ex : element rows (pt c + Z.of_nat (length pre)) = x).
          { rewrite <- At by lia. rewrite F, app_nth2, Nat.sub_diag by lia. reflexivity. }
          rewrite Ex. split; [|reflexivity]. split; [lia|]. split; [lia|]. split.
          * unfold in_rows. rewrite Ex. lia.
          * intros i Hi. destruct (Z.lt_ge_cases i (pt c)); [apply In; lia|]. assert (Y : element rows i = nth (Z.to_nat (i - pt c)) pre 0).
            { replace i with (pt c + Z.of_nat (Z.to_nat (i - pt c))) at 1 by lia. rewrite <- At by lia. rewrite F, app_nth1 by lia. reflexivity. }
            unfold in_rows. rewrite Y. assert (Z1 : List.In (nth (Z.to_nat (i - pt c)) pre 0) pre) by (apply nth_In; lia). specialize (Fp _ Z1). lia.
        + apply IH; [lia|lia|]. intros i Hi. destruct (Z.lt_ge_cases i (pt c)); [apply In; lia|].
          pose proof (find_none _ _ F (element rows i)) as X. unfold in_rows. cbv beta in X. enough (List.In (element rows i) (entries rows p c)) as Y by (specialize (X Y); lia).
          unfold entries. apply in_map. apply In_zrange. lia. }
    apply (G (Z.to_nat n_col) 0); [lia|lia|]. rewrite p0. intros; lia.
  Qed.

  (* ----- the tables are filled in ----- *)

  Lemma init_cols_frame w : zlen (wk_cols w) = n_col + 1 -> wk_head w = p ->
    exists w', ofold init_col (zrange 0 n_col) w = Done w' /\ zlen (wk_cols w') = n_col + 1 /\ wk_head w' = p /\ wk_A w' = wk_A w /\ wk_rows w' = wk_rows w.
  Proof.
    intros Lc Hh. apply (ofold_ok (fun w' => zlen (wk_cols w') = n_col + 1 /\ wk_head w' = p /\ wk_A w' = wk_A w /\ wk_rows w' = wk_rows w)); [|auto].
    intros v c Hc (L & H1 & H2 & H3). apply In_zrange in Hc. unfold init_col, head_at, set_col. rewrite H1. rewrite !pointer_get by lia. cbn [obind].
    rewrite (zupdate_ok (CCol 0 0 0 0 0 0)) by lia. cbn [obind]. eexists. split; [reflexivity|]. cbn. rewrite zlen_put. auto.
  Qed.
  Lemma init_rows_frame w : zlen (wk_rows w) = n_row + 1 ->
    exists w', ofold (fun w row => set_row w row (fun r => CRow (rw_start r) 0 (rw_shared1 r) (-1))) (zrange 0 n_row) w = Done w' /\ zlen (wk_rows w') = n_row + 1 /\
      wk_head w' = wk_head w /\ wk_A w' = wk_A w.
  Proof.
    intros Lc. apply (ofold_ok (fun w' => zlen (wk_rows w') = n_row + 1 /\ wk_head w' = wk_head w /\ wk_A w' = wk_A w)); [|auto].
    intros v c Hc (L & H1 & H2). apply In_zrange in Hc. unfold set_row. rewrite (zupdate_ok (CRow 0 0 0 0)) by lia. cbn [obind]. eexists. split; [reflexivity|]. cbn. rewrite zlen_put. auto.
  Qed.

  (* ----- the notice ----- *)

  (** The list increases strictly, from a number above [x] on. *)
  Fixpoint rises (x : Z) (l : list Z) : Prop := match l with [] => True | y :: l => x < y /\ rises y l end.
  Lemma rises_nth l : forall x k, rises x l -> (S k < length l)%nat -> nth k l 0 < nth (S k) l 0.
  Proof.
    induction l as [|y l IH]; intros x k HR L; [cbn in L; lia|]. destruct HR as (H & R). destruct k as [|k].
    - destruct l as [|z l]; [cbn in L; lia|]. apply R.
    - cbn in L. apply (IH y); [exact R|lia].
  Qed.
  Lemma scan_entries_notice c l : forall w j last w' j' last', ofold (scan_entry c) l (w, j, last) = Done (w', j', last') -> j_seen j' = false ->
    j_seen j = false /\ rises last l /\ wk_A w' = wk_A w /\ wk_head w' = wk_head w.
  Proof.
    induction l as [|x l IH]; intros w j last w' j' last' E J.
    - cbn in E. injection E as <- <- <-. cbn. auto.
    - cbn [ofold] in E. unfold scan_entry at 1 in E. destruct (row_at w x) as [r| |]; cbn [obind] in E; try discriminate.
      destruct (negb (rw_shared2 r =? c)) eqn:M.
      + apply negb_true_iff in M. rewrite M in E. unfold set_row in E. destruct (zupdate (wk_rows w) x _) as [rs| |]; cbn [obind] in E; try discriminate.
        cbn [wk_rows] in E. destruct (zupdate rs x _) as [rs2| |]; cbn [obind] in E; try discriminate. apply IH in E; [|exact J]. cbn [wk_A wk_head] in E.
        rewrite orb_false_r in E. destruct (Z.leb_spec x last) as [Le|Gt]; [destruct E as (X & _); discriminate|]. destruct E as (X & R & HA & HH). cbn [rises]. auto.
      + apply negb_false_iff in M. rewrite M in E. rewrite orb_true_r in E. unfold set_col, set_row in E. destruct (zupdate (wk_cols w) c _) as [cs| |]; cbn [obind] in E; try discriminate.
        cbn [wk_rows] in E. destruct (zupdate (wk_rows w) x _) as [rs2| |]; cbn [obind] in E; try discriminate. apply IH in E; [|exact J]. destruct E as (X & _). discriminate.
  Qed.
  Lemma scan_columns_notice l : forall w j w' j', wk_A w = A -> wk_head w = p -> all_up -> (forall c, In c l -> 0 <= c < n_col) ->
    ofold scan_column l (w, j) = Done (w', j') -> j_seen j' = false -> j_seen j = false /\ forall c, In c l -> rises (-1) (entries rows p c).
  Proof.
    induction l as [|c l IH]; intros w j w' j' HA HH Up Hl E J.
    - cbn in E. injection E as <- <-. split; [exact J|intros c []].
    - cbn [ofold] in E. unfold scan_column at 1 in E. rewrite HA, HH in E. rewrite (slice_entries c Up) in E by (apply Hl; left; auto). cbn [obind] in E.
      destruct (ofold (scan_entry c) (entries rows p c) (w, j, -1)) as [((w1 & j1) & last1)| |] eqn:E1; cbn [obind] in E; try discriminate.
      destruct (j_seen j1) eqn:J1.
      { exfalso. clear IH E1. assert (X : forall l w j w' j', j_seen j = true -> ofold scan_column l (w, j) = Done (w', j') -> j_seen j' = true).
        { clear. induction l as [|c l IH]; intros w j w' j' J E; [cbn in E; congruence|]. cbn [ofold] in E. unfold scan_column at 1 in E. destruct (column_slice _ _ _) as [rs| |]; cbn [obind] in E; try discriminate.
          destruct (ofold (scan_entry c) rs (w, j, -1)) as [((w1 & j1) & last1)| |] eqn:E1; cbn [obind] in E; try discriminate. apply IH in E; [exact E|].
          destruct (j_seen j1) eqn:J1; [reflexivity|]. destruct (scan_entries_notice _ _ _ _ _ _ _ _ E1 J1) as (X & _). congruence. }
        rewrite (X _ _ _ _ _ J1 E) in J. discriminate. }
      destruct (scan_entries_notice _ _ _ _ _ _ _ _ E1 J1) as (J0 & R & HA1 & HH1).
      destruct (IH w1 j1 w' j') as (_ & Rest); auto; [congruence|congruence|intros; apply Hl; right; auto|]. split; [exact J0|]. intros d [<-|Hd]; auto.
  Qed.
  Lemma rises_increasing : all_up -> (forall c, 0 <= c < n_col -> rises (-1) (entries rows p c)) -> increasing_columns n_col rows p.
  Proof.
    intros Up H c i Hc Hi Hi'. specialize (H c Hc). assert (At : forall k, (k < Z.to_nat (pt (c + 1) - pt c))%nat -> nth k (entries rows p c) 0 = element rows (pt c + Z.of_nat k)).
    { intros k Hk. unfold entries, zrange. rewrite map_map. rewrite (nth_indep _ 0 (element rows (pt c + Z.of_nat 0))) by (rewrite map_length, seq_length; lia).
      rewrite (map_nth (fun x => element rows (pt c + Z.of_nat x))). rewrite seq_nth by lia. reflexivity. }
    pose proof (rises_nth _ _ (Z.to_nat (i - pt c)) H) as X. unfold entries at 1 in X. rewrite map_length, zrange_length in X. specialize (X ltac:(lia)).
    rewrite !At in X by lia. replace (pt c + Z.of_nat (Z.to_nat (i - pt c))) with i in X by lia. replace (pt c + Z.of_nat (S (Z.to_nat (i - pt c)))) with (i + 1) in X by lia. exact X.
  Qed.

  (* ----- the initialisation ----- *)

  Lemma init_cases w : zlen (wk_rows w) = n_row + 1 -> zlen (wk_cols w) = n_col + 1 -> wk_A w = A -> wk_head w = p ->
    (exists c, falls_at c /\ init_rows_cols n_row n_col w = Done (inl (ColumnWithNegativeEntries c (pt (c + 1) - pt c)))) \/
    (all_up /\ exists c i, strays_at c i /\ init_rows_cols n_row n_col w = Done (inl (RowIndexOutOfBounds c (element rows i) n_row))) \/
    (all_up /\ all_in_rows /\ (forall e, init_rows_cols n_row n_col w <> Done (inl e)) /\
      forall w' j, init_rows_cols n_row n_col w = Done (inr (w', j)) -> j_seen j = false -> increasing_columns n_col rows p).
  Proof.
    intros Lr Lc HA HH. unfold init_rows_cols. rewrite HH. destruct negative_column_cases as [(c & F & E)|(Up & E)]; rewrite E; cbn [obind].
    - left. eauto.
    - right. destruct (init_cols_frame w Lc HH) as (w1 & E1 & L1 & H1 & A1 & R1). rewrite E1. cbn [obind].
      destruct (init_rows_frame w1 ltac:(congruence)) as (w2 & E2 & L2 & H2 & A2). rewrite E2. cbn [obind]. rewrite H2, H1, A2, A1, HA.
      destruct (bad_entry_cases Up) as [(c & i & F & E3)|(In & E3)]; rewrite E3; cbn [obind]; [left; eauto|]. right. split; [exact Up|]. split; [exact In|].
      destruct (ofold scan_column (zrange 0 n_col) (w2, Jumble false (-1) (-1) 0)) as [(w3 & j)| |] eqn:E4; cbn [obind]; try (split; [discriminate|discriminate]).
      split.
      + intros e. repeat match goal with |- obind ?m _ <> _ => destruct m as [?| |]; cbn [obind]; try discriminate | |- (if ?b then _ else _) <> _ => destruct b | |- Done _ <> _ => discriminate end.
      + intros w' j' E5 J'. assert (Ej : j' = j).
        { revert E5. repeat match goal with |- obind ?m _ = _ -> _ => destruct m as [?| |]; cbn [obind]; try discriminate | |- (if ?b then _ else _) = _ -> _ => destruct b | |- Done _ = _ -> _ => congruence end. }
        subst j'. assert (HA2 : wk_A w2 = A) by congruence. assert (HH2 : wk_head w2 = p) by congruence.
        destruct (scan_columns_notice _ _ _ _ _ HA2 HH2 Up (fun c => proj1 (In_zrange 0 n_col c)) E4 J') as (_ & R).
        apply (rises_increasing Up). intros c Hc. apply R. now apply In_zrange.
  Qed.
End Validate.

Lemma core_cases n_row n_col rows p o cs rs need : 0 <= n_row -> 0 <= n_col -> zlen p = n_col + 1 -> element p 0 = 0 -> 0 <= element p n_col ->
  calculate_sizes n_col n_row (element p n_col) = Some (cs, rs, need) -> need = 2 * element p n_col + n_col + cs + rs -> 0 <= cs -> 0 <= rs -> need <= zlen rows ->
  (exists c, falls_at n_col p c /\ colamd_core n_row n_col rows p o = Done (inl (ColumnWithNegativeEntries c (element p (c + 1) - element p c)))) \/
  (all_up n_col p /\ exists c i, strays_at n_row n_col rows p c i /\ colamd_core n_row n_col rows p o = Done (inl (RowIndexOutOfBounds c (element rows i) n_row))) \/
  (all_up n_col p /\ all_in_rows n_row n_col rows p /\ (forall e, colamd_core n_row n_col rows p o <> Done (inl e)) /\
    forall p' st, colamd_core n_row n_col rows p o = Done (inr (p', st)) -> st_jumble st = None -> increasing_columns n_col rows p).
Proof.
  intros H1 H2 Lp P0 Pn Sz Hn Hcs Hrs Hlen. unfold colamd_core. destruct (Z.ltb_spec n_row 0), (Z.ltb_spec n_col 0); try lia.
  rewrite (zget_ok 0) by lia. cbn [obind]. rewrite <- element_znth by lia. destruct (Z.ltb_spec (element p n_col) 0); [lia|].
  rewrite (zget_ok 0) by lia. cbn [obind]. rewrite <- element_znth by lia. rewrite P0. change (negb (0 =? 0)) with false. cbv iota. rewrite Sz.
  unfold zlen in Hlen. destruct (Z.ltb_spec (Z.of_nat (length rows)) need); [lia|]. cbv zeta. set (na := Z.of_nat (length rows) - (cs + rs)). set (w := Work _ _ _ _).
  destruct (init_cases n_row n_col H2 rows p Lp P0 na ltac:(unfold zlen; lia) w) as [(c & F & E)|[(Up & c & i & F & E)|(Up & In & NE & J)]].
  - unfold w, zlen. cbn. rewrite repeat_length. lia.
  - unfold w, zlen. cbn. rewrite repeat_length. lia.
  - reflexivity.
  - reflexivity.
  - left. exists c. rewrite E. auto.
  - right. left. split; [exact Up|]. exists c, i. rewrite E. auto.
  - right. right. split; [exact Up|]. split; [exact In|]. destruct (init_rows_cols n_row n_col w) as [[e|(w1 & j)]| |]; cbn [obind].
    + destruct (NE e eq_refl).
    + destruct (init_scoring n_row n_col o w1) as [(((w2 & nr2) & nc2) & md)| |]; cbn [obind]; try (split; discriminate).
      destruct (find_ordering _ _ _ _ _ _ _ w2) as [(w3 & g)| |]; cbn [obind]; try (split; discriminate).
      destruct (order_children n_col (wk_cols w3) (wk_head w3)) as [(c & p')| |]; cbn [obind]; try (split; discriminate). split; [discriminate|].
      intros q st [= <- <-]. cbn. destruct (j_seen j) eqn:Ej; [discriminate|]. intros _. exact (J w1 j eq_refl Ej).
    + split; discriminate.
    + split; discriminate.
Qed.
