(** Conversion from triplets, transposition, column permutation *)
From Coq Require Import List Arith Bool Lia Permutation Sorted.
From Verif Require Import Outcome Lib ModelSparse Spec_Sparse Proofs_Sparse.
Import ListNotations.

Lemma strongly_snoc {A} (R : A -> A -> Prop) l x :
  StronglySorted R (l ++ [x]) <-> StronglySorted R l /\ Forall (fun y => R y x) l.
Proof.
  split.
  - induction l as [|y l IH]; cbn; intros H; [split; constructor|].
    inversion H as [|? ? H1 H2]; subst. destruct (IH H1) as [H3 H4].
    apply Forall_app in H2. destruct H2 as [H2 H5]. inversion H5; subst.
    split; constructor; auto.
  - intros [H F]. induction H as [|y l _ IH G]; cbn; [repeat constructor|].
    inversion F; subst. constructor; [auto|]. apply Forall_app. split; auto.
Qed.

Lemma strongly_app {A} (R : A -> A -> Prop) l m :
  StronglySorted R (l ++ m) ->
  StronglySorted R l /\ StronglySorted R m /\ (forall x y, In x l -> In y m -> R x y).
Proof.
  induction l as [|z l IH]; cbn; intros H; [repeat split; [constructor|auto|contradiction]|].
  inversion H as [|? ? H1 H2]; subst. destruct (IH H1) as (H3 & H4 & H5).
  apply Forall_app in H2. destruct H2 as [H2 H6].
  repeat split; [constructor; auto|auto|].
  intros x y [<-|Hx] Hy; [|auto]. rewrite Forall_forall in H6. auto.
Qed.

Section Group.
  Context {T : Type} (add : T -> T -> T).
  Notation cell := (nat * nat * T)%type.

  Definition same (a b : cell) : bool := (cell_row a =? cell_row b) && (cell_col a =? cell_col b).

  Lemma same_spec a b : same a b = true <-> cell_row a = cell_row b /\ cell_col a = cell_col b.
  Proof.
    unfold same. destruct (Nat.eqb_spec (cell_row a) (cell_row b)), (Nat.eqb_spec (cell_col a) (cell_col b));
      cbn; split; try discriminate; intuition congruence.
  Qed.

  (** Add a cell to those gathered so far *)
  Definition gadd (g : list cell) (t : cell) : list cell :=
    match rev g with
    | z :: g' => if same t z then rev g' ++ [(fst z, add (snd z) (snd t))] else g ++ [t]
    | [] => [t]
    end.

  Definition group (l : list cell) : list cell := fold_left gadd l [].

  (** Values at a cell, in order *)
  Definition at_cell (l : list cell) (j i : nat) : list T :=
    map snd (filter (fun t => same t (j, i, snd t)) l).

  Lemma gadd_snoc g z t :
    gadd (g ++ [z]) t = if same t z then g ++ [(fst z, add (snd z) (snd t))] else (g ++ [z]) ++ [t].
  Proof. unfold gadd. rewrite rev_app_distr. cbn. now rewrite rev_involutive. Qed.

  Lemma total_snoc vs v u : total add vs = Some u -> total add (vs ++ [v]) = Some (add u v).
  Proof.
    destruct vs as [|w vs]; cbn; [discriminate|]. intros E; injection E as <-.
    now rewrite fold_left_app.
  Qed.

  Lemma at_cell_snoc l t j i :
    at_cell (l ++ [t]) j i = at_cell l j i ++ if same t (j, i, snd t) then [snd t] else [].
  Proof.
    unfold at_cell. rewrite filter_app, map_app. cbn. now destruct (same t (j, i, snd t)).
  Qed.

  Lemma at_cell_not l j i : (forall v, ~ In (j, i, v) l) -> at_cell l j i = [].
  Proof.
    intros H. unfold at_cell. induction l as [|[[c r] v] l IH]; cbn; [reflexivity|].
    destruct (same (c, r, v) (j, i, v)) eqn:E; cbn.
    - apply same_spec in E. cbn in E. destruct E as [-> ->]. exfalso. apply (H v). now left.
    - apply IH. intros w Hw. apply (H w). now right.
  Qed.

  Definition gathered (l g : list cell) : Prop :=
    StronglySorted cell_lt g /\
    (forall y, In y g -> exists x, In x l /\ cell_row x = cell_row y /\ cell_col x = cell_col y) /\
    (forall j i v, In (j, i, v) g <-> total add (at_cell l j i) = Some v).

  Lemma gathered_step l g t :
    Forall (fun x => cell_le x t) l -> gathered l g -> gathered (l ++ [t]) (gadd g t).
  Proof.
    intros Hle (Hs & Hk & Hv).
    assert (Gle : forall y, In y g -> cell_le y t).
    { intros y Hy. destruct (Hk y Hy) as (x & Hx & E1 & E2).
      rewrite Forall_forall in Hle. specialize (Hle x Hx). unfold cell_le in *. lia. }
    destruct g as [|z0 g0] eqn:Eg.
    - assert (Hnone : forall j i, at_cell l j i = []).
      { intros j i. destruct (at_cell l j i) as [|v vs] eqn:E; [reflexivity|].
        destruct (proj2 (Hv j i (fold_left add vs v))). rewrite E. reflexivity. }
      cbn. split; [repeat constructor|]. split.
      + intros y [<-|[]]. exists t. split; [apply in_or_app; right; now left|auto].
      + intros j i v. rewrite at_cell_snoc, Hnone. cbn [app].
        destruct (same t (j, i, snd t)) eqn:E.
        * apply same_spec in E. destruct t as [[c r] w]. cbn in E. destruct E as [-> ->]. cbn.
          split; [intros [X|[]]; congruence|]. intros X; injection X as <-. now left.
        * cbn. split; [|discriminate]. intros [X|[]]. subst t. cbn in E.
          unfold same in E. cbn in E. rewrite !Nat.eqb_refl in E. discriminate.
    - destruct (@exists_last _ (z0 :: g0)) as (g' & z & Ez); [discriminate|].
      rewrite Ez in *. clear z0 g0 Ez Eg g. rename g' into g.
      rewrite gadd_snoc. apply strongly_snoc in Hs. destruct Hs as [Hs Hlast].
      rewrite Forall_forall in Hlast.
      assert (Hz : In z (g ++ [z])) by (apply in_or_app; right; now left).
      destruct (same t z) eqn:E.
      + apply same_spec in E. destruct E as [Er Ec].
        destruct z as [[c r] u]. cbn [fst snd] in *. destruct t as [[c' r'] w]. cbn in Er, Ec. subst c' r'.
        cbn [snd]. split; [|split].
        * apply strongly_snoc. split; [exact Hs|]. apply Forall_forall. intros y Hy.
          specialize (Hlast y Hy). exact Hlast.
        * intros y Hy. apply in_app_or in Hy. destruct Hy as [Hy|[<-|[]]].
          -- destruct (Hk y) as (x & Hx & E); [apply in_or_app; now left|].
             exists x. split; [apply in_or_app; now left|exact E].
          -- exists (c, r, w). split; [apply in_or_app; right; now left|auto].
        * intros j i v. rewrite at_cell_snoc.
          destruct (same (c, r, w) (j, i, snd (c, r, w))) eqn:E.
          -- apply same_spec in E. cbn in E. destruct E as [-> ->]. cbn [snd].
             assert (Hu : total add (at_cell l j i) = Some u) by (apply Hv; exact Hz).
             rewrite (total_snoc _ w u Hu). split.
             ++ intros Hy. apply in_app_or in Hy. destruct Hy as [Hy|[X|[]]]; [|congruence].
                specialize (Hlast _ Hy). unfold cell_lt in Hlast. cbn in Hlast. lia.
             ++ intros X; injection X as <-. apply in_or_app. right. now left.
          -- rewrite app_nil_r, <- Hv. split; intros Hy; apply in_app_or in Hy; destruct Hy as [Hy|[X|[]]].
             ++ apply in_or_app. now left.
             ++ injection X as -> -> _. unfold same in E; cbn in E. rewrite !Nat.eqb_refl in E. discriminate.
             ++ apply in_or_app. now left.
             ++ injection X as -> -> _. unfold same in E; cbn in E. rewrite !Nat.eqb_refl in E. discriminate.
      + assert (Hlt : forall y, In y (g ++ [z]) -> cell_lt y t).
        { assert (Hzt : cell_lt z t).
          { specialize (Gle z Hz). destruct (Nat.eq_dec (cell_row z) (cell_row t)) as [E1|E1],
              (Nat.eq_dec (cell_col z) (cell_col t)) as [E2|E2].
            - rewrite (proj2 (same_spec t z)) in E; [discriminate|]. split; congruence.
            - unfold cell_le, cell_lt in *. lia.
            - unfold cell_le, cell_lt in *. lia.
            - unfold cell_le, cell_lt in *. lia. }
          intros y Hy. apply in_app_or in Hy. destruct Hy as [Hy|[<-|[]]]; [|exact Hzt].
          specialize (Hlast y Hy). unfold cell_lt in *. lia. }
        split; [|split].
        * apply strongly_snoc. split; [apply strongly_snoc; split; [exact Hs|apply Forall_forall; exact Hlast]|].
          apply Forall_forall. exact Hlt.
        * intros y Hy. apply in_app_or in Hy. destruct Hy as [Hy|[<-|[]]].
          -- destruct (Hk y Hy) as (x & Hx & E'). exists x. split; [apply in_or_app; now left|exact E'].
          -- exists t. split; [apply in_or_app; right; now left|auto].
        * intros j i v. rewrite at_cell_snoc.
          destruct (same t (j, i, snd t)) eqn:E'.
          -- apply same_spec in E'. destruct t as [[c r] w]. cbn in E'. destruct E' as [-> ->]. cbn [snd].
             assert (Hn : at_cell l j i = []).
             { destruct (at_cell l j i) as [|u us] eqn:Eu; [reflexivity|].
               assert (Hin : In (j, i, fold_left add us u) (g ++ [z])).
               { apply Hv. rewrite Eu. reflexivity. }
               specialize (Hlt _ Hin). unfold cell_lt in Hlt. cbn in Hlt. lia. }
             rewrite Hn. cbn. split.
             ++ intros Hy. apply in_app_or in Hy. destruct Hy as [Hy|[X|[]]]; [|congruence].
                specialize (Hlt _ Hy). unfold cell_lt in Hlt. cbn in Hlt. lia.
             ++ intros X; injection X as <-. apply in_or_app. right. now left.
          -- rewrite app_nil_r, <- Hv. split; intros Hy.
             ++ apply in_app_or in Hy. destruct Hy as [Hy|[X|[]]]; [exact Hy|].
                subst t. unfold same in E'; cbn in E'. rewrite !Nat.eqb_refl in E'. discriminate.
             ++ apply in_or_app. now left.
  Qed.

  Lemma group_gathered l : StronglySorted cell_le l -> gathered l (group l).
  Proof.
    unfold group. induction l as [|t l IH] using rev_ind; intros Hs.
    - cbn. split; [constructor|]. split; [contradiction|]. intros; cbn. split; [contradiction|discriminate].
    - rewrite fold_left_app. cbn. apply strongly_snoc in Hs. destruct Hs as [Hs F].
      apply gathered_step; auto.
  Qed.

  (** Cells that are all different are left alone. *)
  Lemma group_id l : StronglySorted cell_lt l -> group l = l.
  Proof.
    unfold group. induction l as [|t l IH] using rev_ind; intros Hs; [reflexivity|].
    rewrite fold_left_app. apply strongly_snoc in Hs. destruct Hs as [Hs F]. rewrite (IH Hs). cbn.
    destruct l as [|z0 l0]; [reflexivity|].
    destruct (@exists_last _ (z0 :: l0)) as (l' & z & Ez); [discriminate|]. rewrite Ez in *.
    rewrite gadd_snoc. destruct (same t z) eqn:E; [|reflexivity].
    apply same_spec in E. rewrite Forall_forall in F.
    specialize (F z). unfold cell_lt in F. exfalso.
    assert (In z (l' ++ [z])) by (apply in_or_app; right; now left). specialize (F H). lia.
  Qed.
End Group.

(* ----- from_triplet_mat ----- *)

Lemma set_pointers_ok cols value ptrs :
  Forall (fun c => c < length ptrs) cols ->
  exists ptrs', set_pointers cols value ptrs = Done ptrs' /\ length ptrs' = length ptrs /\
    (forall c, In c cols -> nth_error ptrs' c = Some value) /\
    (forall c, ~ In c cols -> nth_error ptrs' c = nth_error ptrs c).
Proof.
  unfold set_pointers. revert ptrs; induction cols as [|c cols IH]; intros ptrs F.
  - exists ptrs. repeat split; auto. contradiction.
  - inversion F as [|? ? Hc F']; subst. cbn [ofold]. rewrite oset_ok by assumption. cbn [obind].
    destruct (IH (lset ptrs c value)) as (ptrs' & E & Hl & H1 & H2).
    { eapply Forall_impl; [|exact F']. intros; now rewrite lset_length. }
    exists ptrs'. rewrite lset_length in Hl. split; [exact E|]. split; [exact Hl|]. split.
    + intros d [<-|Hd]; [|auto]. destruct (in_dec Nat.eq_dec c cols) as [Hi|Hi]; [auto|].
      rewrite H2 by exact Hi. now apply nth_error_lset_eq.
    + intros d Hd. cbn in Hd. rewrite H2 by tauto. apply nth_error_lset_ne. tauto.
Qed.

Lemma in_range_incl c a b : In c (range_incl a b) <-> a <= c <= b.
Proof. unfold range_incl. rewrite in_seq. lia. Qed.

Lemma gather_perm {A} (l : list A) idxs srt :
  Forall2 (fun idx t => nth_error l idx = Some t) idxs srt ->
  Permutation idxs (seq 0 (length l)) -> Permutation srt l.
Proof.
  intros F P. destruct (Permutation_Forall2 P F) as (l' & P' & F').
  rewrite P'. clear -F'.
  enough (l' = l) by (subst; reflexivity).
  apply nth_error_ext. intros k.
  pose proof (Forall2_length _ _ _ F') as Hl. rewrite seq_length in Hl.
  destruct (nth_error l' k) as [t|] eqn:E.
  - assert (Hk : k < length l) by (apply nth_error_lt in E; lia).
    assert (Hs : nth_error (seq 0 (length l)) k = Some k).
    { rewrite nth_error_seq. destruct (Nat.ltb_spec k (length l)); [reflexivity|lia]. }
    now pose proof (Forall2_nth _ _ _ _ _ _ F' Hs E) as <-.
  - apply nth_error_None in E. symmetry. apply nth_error_None. lia.
Qed.

Lemma gather_ex {A} (l : list A) idxs :
  Forall (fun k => k < length l) idxs ->
  exists srt, Forall2 (fun idx t => nth_error l idx = Some t) idxs srt.
Proof.
  induction 1 as [|k idxs Hk _ [srt IH]]; [exists []; constructor|].
  destruct (nth_error_ex l k Hk) as [t Ht]. exists (t :: srt). now constructor.
Qed.

(** What a triplet matrix holds *)
Record contents {T} (a : triplet_mat T) (l : list (nat * nat * T)) : Prop := Contents {
  co_rows : t_row_indices a = map (fun t => fst (fst t)) l;
  co_cols : t_col_indices a = map (fun t => snd (fst t)) l;
  co_values : t_values a = map snd l;
  co_bound : Forall (fun t => fst (fst t) < t_nrows a /\ snd (fst t) < t_ncols a) l
}.

Lemma contents_push {T} (a : triplet_mat T) l i j v :
  contents a l -> contents (push_triplet i j v a) (l ++ [(i, j, v)]).
Proof.
  intros [H1 H2 H3 H4]. constructor; cbn; rewrite ?map_app; cbn; try congruence.
  apply Forall_app. split; [|constructor; [cbn; lia|constructor]].
  eapply Forall_impl; [|exact H4]. cbn. intros; lia.
Qed.

Lemma contents_from_iter {T} (ts l : list (nat * nat * T)) a :
  contents a l ->
  contents (fold_left (fun a '(row, col, value) => push_triplet row col value a) ts a) (l ++ ts).
Proof.
  revert a l; induction ts as [|[[i j] v] ts IH]; intros a l H; cbn [fold_left].
  - now rewrite app_nil_r.
  - replace (l ++ (i, j, v) :: ts) with ((l ++ [(i, j, v)]) ++ ts) by (now rewrite <- app_assoc).
    apply IH, contents_push, H.
Qed.

Lemma holds_contents {T} (a : triplet_mat T) ts : holds a ts -> contents a ts.
Proof.
  induction 1 as [r c|a ts i j v _ IH|a ts _ IH|a ts _ IH|ts].
  - constructor; cbn; auto.
  - now apply contents_push.
  - constructor; cbn; auto.
  - destruct IH as [H1 H2 H3 H4]. constructor; cbn; rewrite ?map_map.
    + rewrite H2. apply map_ext. now intros [[i j] v].
    + rewrite H1. apply map_ext. now intros [[i j] v].
    + rewrite H3. apply map_ext. now intros [[i j] v].
    + apply Forall_forall. intros t Ht. apply in_map_iff in Ht. destruct Ht as ([[i j] v] & <- & Ht).
      rewrite Forall_forall in H4. specialize (H4 _ Ht). cbn in *. tauto.
  - apply (contents_from_iter ts []). constructor; cbn; auto.
Qed.

Section Convert.
  Context {T : Type} (add : T -> T -> T).
  Notation cell := (nat * nat * T)%type.
  Notation group := (group add). Notation gadd := (gadd add).

  Definition flip_cell (t : nat * nat * T) : cell := let '(i, j, v) := t in (j, i, v).

  Definition csc_inv (ncols : nat) (pre : list cell) (st : csc_state T) : Prop :=
    c_values st = map snd (group pre) /\ c_rows st = map cell_row (group pre) /\
    c_prev st = match rev pre with [] => None | t :: _ => Some (cell_row t, cell_col t) end /\
    length (c_pointers st) = ncols + 1 /\
    (forall c, c < next_col (c_prev st) ->
       nth_error (c_pointers st) c = Some (below cell_col c (group pre))).

  Lemma group_snoc pre t : group (pre ++ [t]) = gadd (group pre) t.
  Proof. unfold Proofs_Convert.group. now rewrite fold_left_app. Qed.

  (** The last cell gathered is that of the last triplet. *)
  Lemma group_last pre t :
    exists g u, group (pre ++ [t]) = g ++ [(fst t, u)].
  Proof.
    rewrite group_snoc. unfold Proofs_Convert.gadd.
    destruct (rev (group pre)) as [|z g] eqn:E.
    - exists [], (snd t). now destruct t.
    - destruct (same t z) eqn:Es.
      + apply same_spec in Es. destruct z as [[c r] u], t as [[c' r'] w]. cbn in Es. destruct Es as [-> ->].
        eexists _, _. reflexivity.
      + exists (group pre), (snd t). now destruct t.
  Qed.

  Lemma csc_step_ok a l ncols pre t idx st :
    contents a l -> t_ncols a = ncols ->
    nth_error (map flip_cell l) idx = Some t ->
    StronglySorted cell_le (pre ++ [t]) ->
    csc_inv ncols pre st ->
    exists st', csc_step add a st idx = Done st' /\ csc_inv ncols (pre ++ [t]) st'.
  Proof.
    intros Hco Hnc Hn Hs (Iv & Ir & Ip & Il & Ic).
    rewrite nth_error_map in Hn. destruct (nth_error l idx) as [[[row col] v]|] eqn:En; [|discriminate].
    cbn in Hn. injection Hn as <-. set (t := (col, row, v)) in *.
    assert (Hcol : col < ncols).
    { pose proof (co_bound _ _ Hco) as B. rewrite Forall_forall in B.
      specialize (B _ (nth_error_In _ _ En)). cbn in B. lia. }
    unfold csc_step, oget.
    rewrite (co_rows _ _ Hco), (co_cols _ _ Hco), (co_values _ _ Hco), !nth_error_map, En.
    cbn [option_map obind fst snd].
    apply strongly_snoc in Hs. destruct Hs as [Hs F].
    destruct (group_gathered add pre Hs) as (Gs & Gk & Gv).
    destruct pre as [|q pre _] using rev_ind.
    - (* first triplet *)
      cbn [rev] in Ip. rewrite Ip. cbn [same_cell same_col next_col].
      destruct (set_pointers_ok (range_incl 0 col) (length (c_values st)) (c_pointers st)) as (ptrs & E & El & E1 & E2).
      { apply Forall_forall. intros c Hc. apply in_range_incl in Hc. lia. }
      rewrite E. cbn [obind]. eexists. split; [reflexivity|].
      unfold csc_inv. cbn [c_values c_rows c_prev c_pointers app rev].
      rewrite Iv, Ir. split; [reflexivity|]. split; [reflexivity|]. split; [reflexivity|].
      split; [lia|]. intros c Hc. cbn [next_col] in Hc.
      rewrite E1 by (apply in_range_incl; lia). rewrite Iv.
      change (Some 0 = Some ((if col <? c then 1 else 0) + 0)). destruct (Nat.ltb_spec col c); [lia|]. reflexivity.
    - rewrite rev_app_distr in Ip. cbn [rev app] in Ip.
      assert (Hqt : cell_le q t).
      { rewrite Forall_forall in F. apply F, in_or_app. right. now left. }
      destruct (group_last pre q) as (g & u & Eg). rewrite Eg in *.
      assert (Hle : forall y, In y (g ++ [(fst q, u)]) -> cell_col y <= cell_col q).
      { intros y Hy. destruct (Gk y Hy) as (x & Hx & _ & Ex). rewrite <- Ex.
        apply strongly_app in Hs. destruct Hs as (_ & _ & Hs).
        apply in_app_or in Hx. destruct Hx as [Hx|[<-|[]]]; [|lia].
        specialize (Hs x q Hx (or_introl eq_refl)). unfold cell_le in Hs. lia. }
      assert (Egt : group ((pre ++ [q]) ++ [t]) =
                    if same t q then g ++ [(fst q, add u v)] else (g ++ [(fst q, u)]) ++ [t]).
      { rewrite group_snoc, Eg, gadd_snoc. reflexivity. }
      assert (Ecell : same_cell (c_prev st) row col = same t q) by (now rewrite Ip).
      assert (Ecol : same_col (c_prev st) col = (col =? cell_col q)) by (now rewrite Ip).
      assert (Enext : next_col (c_prev st) = S (cell_col q)) by (now rewrite Ip).
      rewrite Ecell, Ecol. rewrite Enext in *. destruct (same t q) eqn:Esame.
      + apply same_spec in Esame. destruct Esame as [Er Ec]. cbn in Er, Ec.
        assert (Eadd : add_to_last add (c_values st) v = Done (map snd (g ++ [(fst q, add u v)]))).
        { rewrite Iv. unfold add_to_last. rewrite map_app, rev_app_distr. cbn. rewrite rev_involutive, map_app. reflexivity. }
        rewrite Eadd. cbn [obind]. eexists. split; [reflexivity|].
        unfold csc_inv. cbn [c_values c_rows c_prev c_pointers]. rewrite Egt, !rev_app_distr. cbn [rev app].
        split; [reflexivity|]. split; [rewrite Ir, !map_app; reflexivity|]. split; [reflexivity|].
        split; [exact Il|]. intros c Hc. cbn [next_col] in Hc. rewrite Ic by lia.
        f_equal. rewrite !below_app. reflexivity.
      + assert (Enew : forall ptrs,
          length ptrs = ncols + 1 ->
          (forall c, c <= col -> nth_error ptrs c = Some (below cell_col c (g ++ [(fst q, u)]))) ->
          csc_inv ncols ((pre ++ [q]) ++ [t])
            (CscState (c_values st ++ [v]) (c_rows st ++ [row]) ptrs (Some (row, col)))).
        { intros ptrs Hl Hp. unfold csc_inv. cbn [c_values c_rows c_prev c_pointers].
          rewrite Egt, (rev_app_distr (pre ++ [q])), Iv, Ir. cbn [rev app].
          rewrite (map_app _ (g ++ [(fst q, u)])), (map_app _ (g ++ [(fst q, u)])).
          split; [reflexivity|]. split; [reflexivity|]. split; [reflexivity|]. split; [exact Hl|].
          intros c Hc. cbn [next_col] in Hc. rewrite Hp by lia. f_equal.
          rewrite (below_app _ c (g ++ [(fst q, u)])).
          change (below cell_col c [t]) with ((if col <? c then 1 else 0) + 0).
          destruct (Nat.ltb_spec col c); lia. }
        destruct (Nat.eqb_spec col (cell_col q)) as [E|E].
        * cbn [obind]. eexists. split; [reflexivity|]. apply Enew; [exact Il|].
          intros c Hc. apply Ic. lia.
        * destruct (set_pointers_ok (range_incl (S (cell_col q)) col) (length (c_values st)) (c_pointers st)) as (ptrs & Es & El & E1 & E2).
          { apply Forall_forall. intros c Hc. apply in_range_incl in Hc. lia. }
          rewrite Es. cbn [obind]. eexists. split; [reflexivity|]. apply Enew; [lia|].
          intros c Hc. destruct (le_lt_dec c (cell_col q)) as [Hcq|Hcq].
          -- rewrite E2 by (rewrite in_range_incl; lia). apply Ic. lia.
          -- rewrite E1 by (apply in_range_incl; lia). f_equal. rewrite Iv, map_length.
             symmetry. apply below_all, Forall_forall. intros y Hy. specialize (Hle y Hy). lia.
  Qed.

  Lemma csc_fold_ok a l ncols idxs srt pre st :
    contents a l -> t_ncols a = ncols ->
    Forall2 (fun idx t => nth_error (map flip_cell l) idx = Some t) idxs srt ->
    StronglySorted cell_le (pre ++ srt) ->
    csc_inv ncols pre st ->
    exists st', ofold (csc_step add a) idxs st = Done st' /\ csc_inv ncols (pre ++ srt) st'.
  Proof.
    intros Hco Hnc F. revert pre st. induction F as [|idx t idxs srt Hn F IH]; intros pre st Hs HI.
    - exists st. rewrite app_nil_r. now split.
    - replace (pre ++ t :: srt) with ((pre ++ [t]) ++ srt) in * by (now rewrite <- app_assoc).
      destruct (csc_step_ok a l ncols pre t idx st Hco Hnc Hn) as (st' & E & HI'); auto.
      { apply strongly_app in Hs. tauto. }
      cbn [ofold]. rewrite E. cbn [obind]. apply IH; auto.
  Qed.

  (** The conversion gathers the triplets, sorted by cell. *)
  Lemma from_triplet_mat_csc sort a l :
    sorting sort -> contents a l ->
    exists srt, Permutation srt (map flip_cell l) /\ StronglySorted cell_le srt /\
      cells (t_nrows a) (t_ncols a) (group srt) /\
      from_triplet_mat add sort a = Done (csc (t_nrows a) (t_ncols a) (group srt)).
  Proof.
    intros Hsort Hco.
    set (key := fun idx => (nth idx (t_col_indices a) 0, nth idx (t_row_indices a) 0)).
    destruct (Hsort key (seq 0 (length (t_values a)))) as [Hp Hss].
    set (idxs := sort key (seq 0 (length (t_values a)))) in *.
    assert (Hlen : length (t_values a) = length (map flip_cell l)).
    { rewrite (co_values _ _ Hco), !map_length. reflexivity. }
    assert (Hlt : Forall (fun k => k < length (map flip_cell l)) idxs).
    { apply Forall_forall. intros k Hk. apply (Permutation_in _ Hp) in Hk. apply in_seq in Hk. lia. }
    destruct (gather_ex (map flip_cell l) idxs Hlt) as [srt F].
    assert (P : Permutation srt (map flip_cell l)).
    { eapply gather_perm; [exact F|]. now rewrite <- Hlen. }
    assert (Hkey : forall k t, nth_error (map flip_cell l) k = Some t -> key k = (cell_col t, cell_row t)).
    { intros k t Hk. rewrite nth_error_map in Hk. destruct (nth_error l k) as [[[i j] v]|] eqn:E; [|discriminate].
      cbn in Hk. injection Hk as <-. unfold key. cbn.
      rewrite (co_cols _ _ Hco), (co_rows _ _ Hco).
      f_equal; apply nth_error_nth; rewrite nth_error_map, E; reflexivity. }
    assert (Hs : StronglySorted cell_le srt).
    { apply strongly_intro. intros i j x y Hx Hy Hij.
      pose proof (Forall2_length _ _ _ F) as HL.
      destruct (nth_error_ex idxs i) as [ki Hki]; [apply nth_error_lt in Hx; lia|].
      destruct (nth_error_ex idxs j) as [kj Hkj]; [apply nth_error_lt in Hy; lia|].
      pose proof (strongly_nth _ _ _ _ _ _ Hss Hki Hkj Hij) as G. cbn beta in G.
      rewrite (Hkey ki x) in G by (eapply Forall2_nth in F; eauto).
      rewrite (Hkey kj y) in G by (eapply Forall2_nth in F; eauto).
      exact G. }
    exists srt. split; [exact P|]. split; [exact Hs|].
    destruct (group_gathered add srt Hs) as (Gs & Gk & Gv).
    assert (Hb : forall y, In y (group srt) -> cell_row y < t_nrows a /\ cell_col y < t_ncols a).
    { intros y Hy. destruct (Gk y Hy) as (x & Hx & E1 & E2). rewrite <- E1, <- E2.
      apply (Permutation_in _ P) in Hx. apply in_map_iff in Hx. destruct Hx as ([[i j] v] & <- & Hx).
      pose proof (co_bound _ _ Hco) as B. rewrite Forall_forall in B. apply (B _ Hx). }
    split; [constructor; [exact Gs|apply Forall_forall; exact Hb]|].
    unfold from_triplet_mat. fold key. fold idxs.
    destruct (csc_fold_ok a l (t_ncols a) idxs srt [] (CscState [] [] (repeat 0 (t_ncols a + 1)) None)
                Hco eq_refl F Hs) as (st & E & Iv & Ir & Ip & Il & Ic).
    { unfold csc_inv. cbn. split; [reflexivity|]. split; [reflexivity|]. split; [reflexivity|].
      rewrite repeat_length. split; [reflexivity|]. intros; lia. }
    rewrite E. cbn [obind]. cbn [app] in Iv, Ir, Ip, Ic.
    destruct (set_pointers_ok (range_incl (next_col (c_prev st)) (t_ncols a)) (length (c_values st)) (c_pointers st))
      as (ptrs & Es & El & E1 & E2).
    { apply Forall_forall. intros c Hc. apply in_range_incl in Hc. lia. }
    rewrite Es. cbn [obind]. unfold csc. rewrite Iv, Ir. do 3 f_equal.
    apply nth_error_ext. intros c. rewrite nth_error_map, nth_error_seq.
    destruct (Nat.ltb_spec c (t_ncols a + 1)) as [Hc|Hc]; cbn [option_map].
    2:{ apply nth_error_None. lia. }
    cbn [Nat.add]. destruct (le_lt_dec (next_col (c_prev st)) c) as [Hn|Hn].
    - rewrite E1 by (apply in_range_incl; lia). f_equal. rewrite Iv, map_length. symmetry.
      apply below_all, Forall_forall. intros y Hy.
      destruct (rev srt) as [|q pre] eqn:Er.
      + apply (f_equal (@rev _)) in Er. rewrite rev_involutive in Er. subst srt. destruct Hy.
      + rewrite Ip in Hn. cbn [next_col] in Hn.
        destruct (Gk y Hy) as (x & Hx & _ & Ex). rewrite <- Ex.
        apply (f_equal (@rev _)) in Er. rewrite rev_involutive in Er. cbn in Er. rewrite Er in Hs, Hx.
        apply strongly_app in Hs. destruct Hs as (_ & _ & Hs).
        apply in_app_or in Hx. destruct Hx as [Hx|[<-|[]]]; [|lia].
        specialize (Hs x q Hx (or_introl eq_refl)). unfold cell_le in Hs. lia.
    - rewrite E2 by (rewrite in_range_incl; lia). now apply Ic.
  Qed.
End Convert.
