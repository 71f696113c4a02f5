(** Every call other than [Solve] and [Analyze] does to the program's system
    what [spec_call] does to the sketch. *)
From Coq Require Import List Arith NArith ZArith Lia Bool.
From Verif Require Import Num Outcome Lib ModelExpr ModelGraph ModelSystem ModelSolve
  ModelNumerical ModelApi Spec_Sketch Spec_Graph Proofs_Graph Proofs_System.
Import ListNotations.

Lemma replace_lset {A} (l : list A) i a : replace l i a = lset l i a.
Proof. revert i; induction l; destruct i; simpl; congruence. Qed.
Lemma replace_length {A} (l : list A) i a : length (replace l i a) = length l.
Proof. rewrite replace_lset. apply lset_length. Qed.
Lemma nth_error_replace {A} (l : list A) i j a :
  nth_error (replace l i a) j =
  if Nat.eqb i j then (if Nat.ltb i (length l) then Some a else None) else nth_error l j.
Proof. rewrite replace_lset. apply nth_error_lset. Qed.

Section Calls.
  Context {F : Type} {NF : Num F}.
  Implicit Types (s : system F) (sk : sketch F).

  (** ** Fixing *)
  Lemma models_fixed s sk fixed fx : models s sk ->
    (forall c v, addr (sys_elements s) c = Some v -> (In v fixed <-> In c fx)) ->
    (forall v, In v fixed -> v < length (sys_variables s)) ->
    (forall c, In c fx -> exists v, addr (sys_elements s) c = Some v) ->
    models (with_fixed fixed s) (set_fixed fx sk).
  Proof. intros M H1 H2 H3. destruct M. constructor; simpl; auto. Qed.

  Lemma item_coords_vars s sk i e : models s sk -> nth_error (sys_elements s) i = Some e ->
    (forall c, In c (item_coords sk i) ->
       exists v, addr (sys_elements s) c = Some v /\ In v (element_variables e)) /\
    (forall v, In v (element_variables e) ->
       exists c, In c (item_coords sk i) /\ addr (sys_elements s) c = Some v).
  Proof.
    intros M He. destruct (elem_nth _ _ _ _ M He) as (it & Hit & R).
    assert (P : forall p a, pt_at (sys_elements s) p = Some a ->
              addr (sys_elements s) (p, 0) = Some a /\ addr (sys_elements s) (p, 1) = Some (S a)).
    { intros p a Hp. unfold pt_at in Hp. unfold addr; simpl.
      destruct (nth_error (sys_elements s) p) as [[]|]; try discriminate.
      injection Hp; intros ->; auto. }
    assert (L : forall p a, len_at (sys_elements s) p = Some a ->
              addr (sys_elements s) (p, 0) = Some a).
    { intros p a Hp. unfold len_at in Hp. unfold addr; simpl.
      destruct (nth_error (sys_elements s) p) as [[]|]; try discriminate.
      injection Hp; intros ->; auto. }
    unfold item_coords. rewrite Hit.
    destruct it, e; simpl in R; try contradiction.
    - assert (A : addr (sys_elements s) (i, 0) = Some idx) by (unfold addr; simpl; now rewrite He).
      split; simpl.
      + intros c [<-|[]]; eauto.
      + intros v [<-|[]]; eauto.
    - assert (A : pt_at (sys_elements s) i = Some idx) by (unfold pt_at; now rewrite He).
      apply P in A. destruct A as [A B]. split; simpl.
      + intros c [<-|[<-|[]]]; eauto.
      + intros v [<-|[<-|[]]]; eauto.
    - destruct R as [R1 R2]. apply P in R1, R2. destruct R1, R2. split; simpl.
      + intros c [<-|[<-|[<-|[<-|[]]]]]; eauto 7.
      + intros v [<-|[<-|[<-|[<-|[]]]]]; eauto 7.
    - destruct R as [R1 R2]. apply P in R1. apply L in R2. destruct R1. split; simpl.
      + intros c0 [<-|[<-|[<-|[]]]]; eauto 7.
      + intros v [<-|[<-|[<-|[]]]]; eauto 7.
  Qed.

  Lemma addr_inj' s sk c c' v : models s sk ->
    addr (sys_elements s) c = Some v -> addr (sys_elements s) c' = Some v -> c = c'.
  Proof. intros M. apply (addr_inj _ (sys_variable_to_primitive s)). apply (m_prim _ _ M). Qed.

  Lemma typed_element_eq s sk h : models s sk ->
    (has_tag sk (eh_tag h) (eh_id h) = true ->
       exists e, typed_element s h = Done e /\ nth_error (sys_elements s) (eh_id h) = Some e) /\
    (forall e, typed_element s h = Done e ->
       has_tag sk (eh_tag h) (eh_id h) = true /\ nth_error (sys_elements s) (eh_id h) = Some e).
  Proof.
    intros M. split.
    - intros H. apply (has_tag_spec s) in H; auto. destruct H as (e & He & Ht).
      exists e. split; auto. unfold typed_element.
      rewrite (proj2 (oget_done _ _ _) He); simpl. destruct e, (eh_tag h); simpl in Ht; try discriminate; auto.
    - intros e H. unfold typed_element in H. apply obind_done in H.
      destruct H as (e' & He & H). apply oget_done in He.
      assert (e' = e /\ element_tag_of e' = eh_tag h).
      { destruct (eh_tag h), e'; simpl in *; try discriminate; inversion H; auto. }
      destruct H0 as [-> Ht]. split; auto. apply (has_tag_spec s); eauto.
  Qed.

  Lemma fix_models s sk h s' : models s sk -> fix_element h s = Done s' ->
    has_tag sk (eh_tag h) (eh_id h) = true /\
    models s' (set_fixed (item_coords sk (eh_id h) ++ sk_fixed sk) sk).
  Proof.
    intros M H. unfold fix_element in H. apply obind_done in H. destruct H as (e & He & H).
    injection H; clear H; intros <-. apply (typed_element_eq _ _ _ M) in He.
    destruct He as [Ht He]. split; auto.
    destruct (item_coords_vars _ _ _ _ M He) as [C V].
    apply models_fixed; auto.
    - intros c v Hc. rewrite in_set_extend, in_app_iff, (m_fixed _ _ M _ _ Hc).
      split; (intros [H|H]; [|]); auto.
      + left. destruct (V _ H) as (c' & Hc' & A). now rewrite (addr_inj' _ _ _ _ _ M Hc A).
      + right. destruct (C _ H) as (v' & A & Hv). now replace v with v' by congruence.
    - intros v Hv. apply in_set_extend in Hv. destruct Hv as [Hv|Hv].
      + now apply (m_fixed_range _ _ M).
      + destruct (V _ Hv) as (c & _ & A). now apply (m_value _ _ M) in A.
    - intros c Hc. apply in_app_iff in Hc. destruct Hc as [Hc|Hc].
      + destruct (C _ Hc) as (v & A & _). eauto.
      + now apply (m_fixed_coord _ _ M).
  Qed.
  Lemma fix_ok s sk h : models s sk -> has_tag sk (eh_tag h) (eh_id h) = true ->
    exists s', fix_element h s = Done s'.
  Proof.
    intros M H. destruct (typed_element_eq _ _ h M) as [P _]. destruct (P H) as (e & He & _).
    unfold fix_element. rewrite He; simpl; eauto.
  Qed.

  Lemma coord_eqb_eq a b : coord_eqb a b = true <-> a = b.
  Proof.
    unfold coord_eqb. rewrite andb_true_iff, !Nat.eqb_eq. destruct a, b; simpl.
    split; [intros []; congruence|]. intros H; injection H; auto.
  Qed.

  Lemma unfix_models s sk h s' : models s sk -> unfix_element h s = Done s' ->
    has_tag sk (eh_tag h) (eh_id h) = true /\
    models s' (set_fixed
               (filter (fun c => negb (existsb (coord_eqb c) (item_coords sk (eh_id h))))
                       (sk_fixed sk)) sk).
  Proof.
    intros M H. unfold unfix_element in H. apply obind_done in H. destruct H as (e & He & H).
    injection H; clear H; intros <-. apply (typed_element_eq _ _ _ M) in He.
    destruct He as [Ht He]. split; auto.
    destruct (item_coords_vars _ _ _ _ M He) as [C V].
    apply models_fixed; auto.
    - intros c v Hc. rewrite !filter_In, (m_fixed _ _ M _ _ Hc).
      assert (E : existsb (Nat.eqb v) (element_variables e) =
                  existsb (coord_eqb c) (item_coords sk (eh_id h))).
      { apply eq_true_iff_eq. rewrite existsb_eqb, existsb_exists. split; intros H.
        - destruct (V _ H) as (c' & Hc' & A). exists c'. split; auto.
          apply coord_eqb_eq. eapply addr_inj'; eauto.
        - destruct H as (c' & Hc' & E). apply coord_eqb_eq in E. subst c'.
          destruct (C _ Hc') as (v' & A & Hv). now replace v with v' by congruence. }
      rewrite E. reflexivity.
    - intros v Hv. apply filter_In in Hv. apply (m_fixed_range _ _ M). tauto.
    - intros c Hc. apply filter_In in Hc. apply (m_fixed_coord _ _ M). tauto.
  Qed.
  Lemma unfix_ok s sk h : models s sk -> has_tag sk (eh_tag h) (eh_id h) = true ->
    exists s', unfix_element h s = Done s'.
  Proof.
    intros M H. destruct (typed_element_eq _ _ h M) as [P _]. destruct (P H) as (e & He & _).
    unfold unfix_element. rewrite He; simpl; eauto.
  Qed.

  (** ** Changing values *)
  Lemma shape_rep els (it it' : item F) e : item_shape_eq it it' -> item_rep els it e -> item_rep els it' e.
  Proof. destruct it, it', e; simpl; try tauto; intros [-> ->]; auto. Qed.
  Lemma shape_refl (it : item F) : item_shape_eq it it.
  Proof. destruct it; simpl; auto. Qed.
  Lemma shape_ends (items items' : list (item F)) i : Forall2 item_shape_eq items items' ->
    ends items i = ends items' i.
  Proof.
    intros H. unfold ends. pose proof (Forall2_length _ _ _ H) as Hl.
    destruct (nth_error items i) as [it|] eqn:E.
    - destruct (nth_error_ex items' i) as [it' E'].
      { apply nth_error_lt in E. lia. }
      rewrite E'. pose proof (Forall2_nth _ _ _ _ _ _ H E E') as S.
      destruct it, it'; simpl in S; try contradiction; auto; destruct S as [-> ->]; auto.
    - apply nth_error_None in E. destruct (nth_error items' i) eqn:E'; auto.
      apply nth_error_lt in E'. lia.
  Qed.
  Lemma shape_prims (items items' : list (item F)) r : Forall2 item_shape_eq items items' ->
    prims items r = prims items' r.
  Proof.
    intros H. unfold prims. generalize (relation_items r) as l; induction l; simpl; auto.
    rewrite IHl, (shape_ends _ _ _ H). auto.
  Qed.

  Lemma models_values s sk s' items' : models s sk ->
    sys_id s' = sys_id s -> sys_graph s' = sys_graph s -> sys_eqgraph s' = sys_eqgraph s ->
    sys_elements s' = sys_elements s ->
    sys_variable_to_primitive s' = sys_variable_to_primitive s ->
    sys_fixed s' = sys_fixed s -> sys_constraints s' = sys_constraints s ->
    sys_expressions s' = sys_expressions s ->
    sys_expression_to_constraint s' = sys_expression_to_constraint s ->
    length (sys_variables s') = length (sys_variables s) ->
    Forall2 item_shape_eq (sk_items sk) items' ->
    (forall c v, addr (sys_elements s) c = Some v ->
       nth_error (sys_variables s') v =
       coord_value (Sketch (sk_id sk) items' (sk_relations sk) (sk_fixed sk)) c) ->
    models s' (Sketch (sk_id sk) items' (sk_relations sk) (sk_fixed sk)).
  Proof.
    intros M E1 E2 E3 E4 E5 E6 E7 E8 E9 E10 Hs Hv.
    constructor; simpl; rewrite ?E1, ?E2, ?E3, ?E4, ?E5, ?E6, ?E7, ?E8, ?E9, ?E10; try apply M.
    - apply Forall2_nth_intro.
      + rewrite <- (Forall2_length _ _ _ Hs). apply (items_length _ _ M).
      + intros i it' e Hi He.
        destruct (elem_nth _ _ _ _ M He) as (it & Hit & R).
        eapply shape_rep; eauto. eapply Forall2_nth; eauto.
    - intros c v Hc. split; [|auto].
      now apply (m_value _ _ M) in Hc.
    - intros i r gc Hr Hg. rewrite (m_ginc _ _ M _ _ _ Hr Hg).
      now apply shape_prims.
  Qed.

  Lemma addr_fst_pt els i a c v : pt_at els i = Some a -> addr els c = Some v -> fst c = i ->
    (c = (i, 0) /\ v = a) \/ (c = (i, 1) /\ v = S a).
  Proof.
    intros H Hc <-. unfold pt_at, addr in *. destruct c as [i k]; simpl in *.
    destruct (nth_error els i) as [[]|]; try discriminate.
    destruct k as [|[|]]; try discriminate; inversion H; inversion Hc; subst; auto.
  Qed.

  Lemma point_update_models s sk h x y s' : models s sk ->
    point_update_value h x y s = Done s' ->
    has_tag sk TPoint (eh_id h) = true /\ models s' (set_item (eh_id h) (IPoint x y) sk).
  Proof.
    intros M H. unfold point_update_value in H.
    apply obind_done in H. destruct H as (idx & Hi & H).
    apply obind_done in H. destruct H as (v1 & H1 & H).
    apply obind_done in H. destruct H as (v2 & H2 & H). injection H; clear H; intros <-.
    apply oset_done in H1, H2. destruct H1 as [L1 ->]. destruct H2 as [L2 ->].
    rewrite lset_length in L2.
    assert (Hp : pt_at (sys_elements s) (eh_id h) = Some idx).
    { unfold point_idx in Hi. apply obind_done in Hi. destruct Hi as (e & He & Hi).
      apply oget_done in He. unfold pt_at. rewrite He.
      destruct e; try discriminate; inversion Hi; auto. }
    split; [apply (has_tag_pt s); eauto|].
    destruct (pt_at_item _ _ _ _ M Hp) as (x0 & y0 & Hit & V0 & V1 & P0 & P1).
    unfold set_item.
    eapply models_values with (s := s); simpl; auto.
    - now rewrite !lset_length.
    - apply Forall2_nth_intro; [now rewrite replace_length|].
      intros i it it' Hi1 Hi2. rewrite nth_error_replace in Hi2.
      destruct (Nat.eqb_spec (eh_id h) i) as [<-|n].
      + rewrite Hit in Hi1. inversion Hi1; subst. apply nth_error_lt in Hit.
        destruct (Nat.ltb_spec (eh_id h) (length (sk_items sk))); [|lia].
        inversion Hi2; subst; simpl; auto.
      + assert (it = it') by congruence. subst. apply shape_refl.
    - intros c v Hc. unfold coord_value; simpl.
      rewrite !nth_error_lset, lset_length.
      apply nth_error_lt in Hit.
      destruct (Nat.eqb_spec (eh_id h) (fst c)) as [E|n].
      + destruct (addr_fst_pt _ _ _ _ _ Hp Hc (eq_sym E)) as [[-> ->]|[-> ->]]; cbn [fst snd].
        * destruct (Nat.eqb_spec (S idx) idx); [lia|]. rewrite Nat.eqb_refl.
          destruct (Nat.ltb_spec idx (length (sys_variables s))); [|lia].
          destruct (Nat.ltb_spec (eh_id h) (length (sk_items sk))); [|lia]. auto.
        * rewrite Nat.eqb_refl.
          destruct (Nat.ltb_spec (S idx) (length (sys_variables s))); [|lia].
          destruct (Nat.ltb_spec (eh_id h) (length (sk_items sk))); [|lia]. auto.
      + pose proof (m_prim _ _ M _ _ Hc) as Hpv.
        destruct (Nat.eqb_spec (S idx) v) as [<-|n1]; [congruence|].
        destruct (Nat.eqb_spec idx v) as [<-|n2]; [congruence|].
        now apply (m_value _ _ M) in Hc.
  Qed.
  Lemma point_update_ok s sk h x y : models s sk -> has_tag sk TPoint (eh_id h) = true ->
    exists s', point_update_value h x y s = Done s'.
  Proof.
    intros M H. apply (has_tag_pt s) in H; auto. destruct H as (idx & Hp).
    destruct (pt_at_item _ _ _ _ M Hp) as (x0 & y0 & Hit & V0 & V1 & P0 & P1).
    unfold point_update_value, point_idx. unfold pt_at in Hp. unfold oget.
    destruct (nth_error (sys_elements s) (eh_id h)) as [[]|]; try discriminate.
    inversion Hp; subst; simpl. apply nth_error_lt in V0, V1.
    rewrite oset_ok by auto; simpl. rewrite oset_ok by (rewrite lset_length; auto); simpl. eauto.
  Qed.

  Lemma length_update_models s sk h x s' : models s sk ->
    length_update_value h x s = Done s' ->
    has_tag sk TLength (eh_id h) = true /\ models s' (set_item (eh_id h) (ILength x) sk).
  Proof.
    intros M H. unfold length_update_value in H.
    apply obind_done in H. destruct H as (idx & Hi & H).
    apply obind_done in H. destruct H as (v1 & H1 & H). injection H; clear H; intros <-.
    apply oset_done in H1. destruct H1 as [L1 ->].
    assert (Hp : len_at (sys_elements s) (eh_id h) = Some idx).
    { unfold length_idx in Hi. apply obind_done in Hi. destruct Hi as (e & He & Hi).
      apply oget_done in He. unfold len_at. rewrite He.
      destruct e; try discriminate; inversion Hi; auto. }
    split; [apply (has_tag_len s); eauto|].
    destruct (len_at_item _ _ _ _ M Hp) as (x0 & Hit & V0 & P0).
    unfold set_item.
    eapply models_values with (s := s); simpl; auto.
    - now rewrite !lset_length.
    - apply Forall2_nth_intro; [now rewrite replace_length|].
      intros i it it' Hi1 Hi2. rewrite nth_error_replace in Hi2.
      destruct (Nat.eqb_spec (eh_id h) i) as [<-|n].
      + rewrite Hit in Hi1. inversion Hi1; subst. apply nth_error_lt in Hit.
        destruct (Nat.ltb_spec (eh_id h) (length (sk_items sk))); [|lia].
        inversion Hi2; subst; simpl; auto.
      + assert (it = it') by congruence. subst. apply shape_refl.
    - intros c v Hc. unfold coord_value; simpl.
      rewrite !nth_error_lset.
      apply nth_error_lt in Hit.
      destruct (Nat.eqb_spec (eh_id h) (fst c)) as [E|n].
      + assert (v = idx /\ snd c = 0) as [-> ->].
        { unfold len_at, addr in *. rewrite <- E in Hc.
          destruct (nth_error (sys_elements s) (eh_id h)) as [[]|]; try discriminate.
          destruct (snd c) as [|]; try discriminate. inversion Hp; inversion Hc; subst; auto. }
        rewrite Nat.eqb_refl.
        destruct (Nat.ltb_spec idx (length (sys_variables s))); [|lia].
        destruct (Nat.ltb_spec (eh_id h) (length (sk_items sk))); [|lia]. auto.
      + pose proof (m_prim _ _ M _ _ Hc) as Hpv.
        destruct (Nat.eqb_spec idx v) as [<-|n2]; [congruence|].
        now apply (m_value _ _ M) in Hc.
  Qed.
  Lemma length_update_ok s sk h x : models s sk -> has_tag sk TLength (eh_id h) = true ->
    exists s', length_update_value h x s = Done s'.
  Proof.
    intros M H. apply (has_tag_len s) in H; auto. destruct H as (idx & Hp).
    destruct (len_at_item _ _ _ _ M Hp) as (x0 & Hit & V0 & P0).
    unfold length_update_value, length_idx. unfold len_at in Hp. unfold oget.
    destruct (nth_error (sys_elements s) (eh_id h)) as [[]|]; try discriminate.
    inversion Hp; subst; simpl. apply nth_error_lt in V0.
    rewrite oset_ok by auto; simpl. eauto.
  Qed.

  (** ** Changing a parameter *)
  Lemma set_parameter_relation els (r : relation F) es t x e :
    compile els r = Some es -> nth_error es 0 = Some e ->
    match with_parameter t x r with
    | Some r' => exists e', set_parameter t x e = Done e' /\ compile els r' = Some [e'] /\
                   es = [e] /\
                   relation_tag r' = relation_tag r /\ variable_indices e' = variable_indices e /\
                   relation_items r' = relation_items r
    | None => set_parameter t x e = Panic
    end.
  Proof.
    intros Hc He.
    destruct r; simpl in Hc;
    repeat match goal with
    | H : match ?x with _ => _ end = _ |- _ => destruct x eqn:?; try discriminate
    end; injection Hc; clear Hc; intros <-; simpl in He; injection He; clear He; intros <-;
    destruct t; simpl; auto; eexists; repeat split; simpl;
    repeat match goal with H : _ = Some _ |- _ => rewrite H; clear H end; auto.
  Qed.

  Lemma update_parameter_eq s sk h x : models s sk ->
    match nth_error (sk_relations sk) (ch_id h) with
    | Some r =>
        match with_parameter (ch_tag h) x r with
        | Some r' => exists s', update_parameter h x s = Done s' /\
            models s' (Sketch (sk_id sk) (sk_items sk) (replace (sk_relations sk) (ch_id h) r')
                     (sk_fixed sk))
        | None => update_parameter h x s = Panic
        end
    | None => update_parameter h x s = Panic
    end.
  Proof.
    intros M. destruct (nth_error (sk_relations sk) (ch_id h)) as [r|] eqn:Hr.
    2:{ unfold update_parameter, oget. apply nth_error_None in Hr. rewrite <- (m_clen _ _ M) in Hr.
        apply nth_error_None in Hr. now rewrite Hr. }
    destruct (m_rel _ _ M _ _ Hr) as (idx & es & Hc & Hes & Hk).
    assert (H0 : exists e, nth_error es 0 = Some e).
    { apply nth_error_ex. rewrite (compile_length _ _ _ Hes). destruct r; simpl; lia. }
    destruct H0 as [e He]. destruct (Hk _ _ He) as [Hx He2c]. rewrite Nat.add_0_r in *.
    pose proof (set_parameter_relation _ _ _ (ch_tag h) x _ Hes He) as HP.
    unfold update_parameter. rewrite (proj2 (oget_done _ _ _) Hc); simpl.
    rewrite (proj2 (oget_done _ _ _) Hx); simpl.
    destruct (with_parameter (ch_tag h) x r) as [r'|]; [|now rewrite HP].
    destruct HP as (e' & He' & Hc' & -> & Ht & Hv & Hit). rewrite He'; simpl.
    rewrite oset_ok by (eapply nth_error_lt; eauto). simpl. eexists; split; auto.
    assert (Hlr := nth_error_lt _ _ _ Hr). assert (Hlx := nth_error_lt _ _ _ Hx).
    assert (NX : forall i r0 idx0 es0 k e0, i <> ch_id h -> nth_error (sk_relations sk) i = Some r0 ->
       nth_error (sys_constraints s) i = Some (EncodedConstraint (relation_tag r0) idx0) ->
       compile (sys_elements s) r0 = Some es0 -> nth_error es0 k = Some e0 -> idx0 + k <> idx).
    { intros i r0 idx0 es0 k e0 Hne Q1 Q2 Q3 Q4 E.
      destruct (m_rel _ _ M _ _ Q1) as (idx1 & es1 & R1 & R2 & R3).
      assert (es1 = es0) by congruence. assert (idx1 = idx0) by (rewrite R1 in Q2; congruence).
      subst. destruct (R3 _ _ Q4) as [_ R4]. congruence. }
    constructor; simpl.
    - apply (m_id _ _ M).
    - apply (m_items _ _ M).
    - apply (m_value _ _ M).
    - apply (m_prim _ _ M).
    - apply (m_surj _ _ M).
    - apply (m_plen _ _ M).
    - apply (m_fixed _ _ M).
    - apply (m_fixed_range _ _ M).
    - apply (m_fixed_coord _ _ M).
    - rewrite replace_length. apply (m_clen _ _ M).
    - intros i r0 Hr0. rewrite nth_error_replace in Hr0.
      destruct (Nat.eqb_spec (ch_id h) i) as [<-|n].
      + destruct (Nat.ltb_spec (ch_id h) (length (sk_relations sk))); [|lia].
        injection Hr0; clear Hr0; intros <-. exists idx, [e']. rewrite Ht.
        split; auto. split; auto. intros [|k] e0 H0; simpl in H0.
        * injection H0; intros <-. rewrite Nat.add_0_r. split; auto.
          now apply nth_error_lset_eq.
        * destruct k; discriminate.
      + destruct (m_rel _ _ M _ _ Hr0) as (idx0 & es0 & Q1 & Q2 & Q3).
        exists idx0, es0. split; auto. split; auto. intros k e0 H0.
        destruct (Q3 _ _ H0). split; auto. rewrite nth_error_lset_ne; auto.
        intro. eapply NX with (k := k) (e0 := e0) (idx0 := idx0); eauto.
    - intros j e0 Hj. rewrite nth_error_lset in Hj.
      destruct (Nat.eqb_spec idx j) as [<-|n].
      + destruct (Nat.ltb_spec idx (length (sys_expressions s))); [|lia].
        injection Hj; clear Hj; intros <-.
        exists (ch_id h), r', idx, [e'], 0. rewrite Ht. repeat split; auto.
        rewrite nth_error_replace, Nat.eqb_refl.
        destruct (Nat.ltb_spec (ch_id h) (length (sk_relations sk))); [auto|lia].
      + destruct (m_expr _ _ M _ _ Hj) as (i & r0 & idx0 & es0 & k & Q1 & Q2 & Q3 & Q4 & Q5).
        exists i, r0, idx0, es0, k. repeat split; auto.
        rewrite nth_error_replace. destruct (Nat.eqb_spec (ch_id h) i) as [<-|]; auto. exfalso.
        assert (r0 = r) by congruence. subst r0. assert (es0 = [e]) by congruence.
        assert (idx0 = idx) by (rewrite Hc in Q2; congruence).
        subst. destruct k as [|[|]]; simpl in Q4; try discriminate. lia.
    - rewrite lset_length. apply (m_e2c _ _ M).
    - apply (m_eqv _ _ M).
    - rewrite (m_eqe _ _ M). apply nth_error_ext. intros j. rewrite !nth_error_map, nth_error_lset.
      destruct (Nat.eqb_spec idx j) as [<-|n]; auto.
      destruct (Nat.ltb_spec idx (length (sys_expressions s))); [|lia]. rewrite Hx; simpl; congruence.
    - intros v l Hl j. rewrite (m_eqin _ _ M _ _ Hl j). rewrite nth_error_lset.
      destruct (Nat.eqb_spec idx j) as [<-|n]; [|reflexivity].
      destruct (Nat.ltb_spec idx (length (sys_expressions s))); [|lia]. split.
      + intros (e0 & E & Hin). exists e'. split; auto. rewrite Hv. congruence.
      + intros (e0 & E & Hin). exists e. split; auto. rewrite <- Hv. congruence.
    - apply (m_graph _ _ M).
    - apply (m_glen _ _ M).
    - rewrite replace_length. apply (m_gclen _ _ M).
    - intros i r0 gc Hr0 Hg. rewrite nth_error_replace in Hr0.
      destruct (Nat.eqb_spec (ch_id h) i) as [<-|n].
      + destruct (Nat.ltb_spec (ch_id h) (length (sk_relations sk))); [|lia].
        injection Hr0; clear Hr0; intros <-.
        rewrite (m_ginc _ _ M _ _ _ Hr Hg). unfold prims. now rewrite Hit.
      + eapply (m_ginc _ _ M); eauto.
  Qed.

  (** ** Reading *)
  Lemma read_point_eq s sk i a : models s sk -> pt_at (sys_elements s) i = Some a ->
    exists p, read_point (sys_variables s) a = Done p /\ point_of sk i = Some p.
  Proof.
    intros M H. destruct (pt_at_item _ _ _ _ M H) as (x & y & Hit & V0 & V1 & _).
    exists (x, y). unfold read_point, point_of. rewrite Hit.
    rewrite (proj2 (oget_done _ _ _) V0). simpl obind.
    rewrite (proj2 (oget_done _ _ _) V1). auto.
  Qed.
  Lemma read_length_eq s sk i a : models s sk -> len_at (sys_elements s) i = Some a ->
    exists l, oget (sys_variables s) a = Done l /\ length_of sk i = Some l.
  Proof.
    intros M H. destruct (len_at_item _ _ _ _ M H) as (x & Hit & V0 & _).
    exists x. unfold length_of. rewrite Hit.
    now rewrite (proj2 (oget_done _ _ _) V0).
  Qed.

  Lemma get_value_eq s sk h : models s sk ->
    match (if (N.eqb (eh_system h) (sk_id sk) && has_tag sk (eh_tag h) (eh_id h))%bool
           then value_of sk (eh_id h) else None) with
    | Some v => get_value h s = Done v
    | None => get_value h s = Panic
    end.
  Proof.
    intros M. unfold get_value. rewrite (m_id _ _ M).
    destruct (N.eqb (eh_system h) (sk_id sk)); simpl; auto.
    destruct (typed_element_eq _ _ h M) as [P Q].
    destruct (has_tag sk (eh_tag h) (eh_id h)) eqn:Ht; simpl.
    - destruct (P eq_refl) as (e & He & Hn). rewrite He; simpl.
      destruct (elem_nth _ _ _ _ M Hn) as (it & Hit & R). unfold value_of.
      assert (A0 : pt_at (sys_elements s) (eh_id h) = match e with EPoint a => Some a | _ => None end)
        by (unfold pt_at; now rewrite Hn).
      assert (A1 : len_at (sys_elements s) (eh_id h) = match e with ELength a => Some a | _ => None end)
        by (unfold len_at; now rewrite Hn).
      rewrite Hit. destruct it, e; simpl in R; try contradiction; simpl.
      + destruct (read_length_eq _ _ _ _ M A1) as (l' & E & E'). rewrite E; simpl.
        unfold length_of in E'. rewrite Hit in E'. congruence.
      + destruct (read_point_eq _ _ _ _ M A0) as (l' & E & E'). rewrite E; simpl.
        unfold point_of in E'. rewrite Hit in E'. congruence.
      + destruct R as [R1 R2]. unfold line_of. rewrite Hit.
        destruct (read_point_eq _ _ _ _ M R1) as (p1 & E1 & E1').
        destruct (read_point_eq _ _ _ _ M R2) as (p2 & E2 & E2').
        rewrite E1, E1'. simpl. rewrite E2, E2'. auto.
      + destruct R as [R1 R2]. unfold circle_of. rewrite Hit.
        destruct (read_point_eq _ _ _ _ M R1) as (p1 & E1 & E1').
        destruct (read_length_eq _ _ _ _ M R2) as (p2 & E2 & E2').
        rewrite E1, E1'. simpl. rewrite E2, E2'. auto.
    - unfold typed_element in *. unfold oget in *.
      destruct (nth_error (sys_elements s) (eh_id h)) as [e|] eqn:Hn; simpl in *; auto.
      destruct (eh_tag h), e; simpl in *; auto; destruct (Q _ eq_refl); discriminate.
  Qed.

  Lemma element_handles_eq s sk : models s sk -> get_element_handles s = element_handles sk.
  Proof.
    intros M. unfold get_element_handles, element_handles.
    apply nth_error_ext. intros i. rewrite !nth_error_map, nth_error_combine, !nth_error_seq.
    rewrite (items_length _ _ M), (m_id _ _ M).
    destruct (Nat.ltb_spec i (length (sys_elements s))) as [Hlt|Hge]; simpl.
    - destruct (nth_error_ex _ _ Hlt) as [e He]. rewrite He; simpl.
      destruct (elem_nth _ _ _ _ M He) as (it & Hit & R). rewrite Hit.
      destruct it, e; simpl in R; try contradiction; auto.
    - auto.
  Qed.
  Lemma constraint_handles_eq s sk : models s sk -> get_constraint_handles s = constraint_handles sk.
  Proof.
    intros M. unfold get_constraint_handles, constraint_handles.
    apply nth_error_ext. intros i. rewrite !nth_error_map, nth_error_combine, !nth_error_seq.
    rewrite <- (m_clen _ _ M), (m_id _ _ M).
    destruct (Nat.ltb_spec i (length (sys_constraints s))) as [Hlt|Hge]; simpl; auto.
    rewrite (m_clen _ _ M) in Hlt. destruct (nth_error_ex _ _ Hlt) as [r Hr]. rewrite Hr; simpl.
    destruct (m_rel _ _ M _ _ Hr) as (idx & es & Hc & _). rewrite Hc. auto.
  Qed.

  (** Values of the variables of an expression *)
  Lemma gather_identity s e :
    (forall v, In v (variable_indices e) -> v < length (sys_variables s)) ->
    exists xs, gather (identity_map (sys_variables s)) e = Done xs /\
      length xs = length (variable_indices e) /\
      forall k v x, nth_error (variable_indices e) k = Some v ->
        nth_error (sys_variables s) v = Some x -> buffer xs k = x.
  Proof.
    intros H. unfold gather.
    destruct (omap_ok (identity_map (sys_variables s)) (variable_indices e)) as [xs Hxs].
    { intros v Hv. unfold identity_map. destruct (oget_ok (sys_variables s) v) as [x Hx]; auto.
      rewrite Hx; simpl; eauto. }
    exists xs. split; auto. split; [eapply omap_length; eauto|].
    intros k v x Hk Hx. destruct (omap_nth' _ _ _ Hxs _ _ Hk) as (b & Hb & Hfb).
    unfold identity_map in Hfb. rewrite (proj2 (oget_done _ _ _) Hx) in Hfb. simpl in Hfb.
    inversion Hfb; subst. unfold buffer. apply nth_error_nth.
    rewrite nth_error_map, Hb. auto.
  Qed.

  Lemma calculate_residual_ok s sk r es e : models s sk ->
    compile (sys_elements s) r = Some es -> In e es ->
    exists xs, gather (identity_map (sys_variables s)) e = Done xs /\
      calculate_residual (identity_map (sys_variables s)) e = Done (fst (compute_rg e (buffer xs))) /\
      forall k v x, nth_error (variable_indices e) k = Some v ->
        nth_error (sys_variables s) v = Some x -> buffer xs k = x.
  Proof.
    intros M Hc He. destruct (gather_identity s e) as (xs & Hxs & _ & Hb).
    { intros v Hv. eapply compile_vars; eauto. }
    exists xs. split; auto. unfold calculate_residual. rewrite Hxs. auto.
  Qed.

  Lemma point_of_at s sk i a : models s sk -> pt_at (sys_elements s) i = Some a ->
    exists x y, point_of sk i = Some (x, y) /\ nth_error (sys_variables s) a = Some x /\
      nth_error (sys_variables s) (S a) = Some y.
  Proof.
    intros M H. destruct (pt_at_item _ _ _ _ M H) as (x & y & Hit & V0 & V1 & _).
    exists x, y. unfold point_of. now rewrite Hit.
  Qed.
  Lemma line_of_at s sk i a b : models s sk -> line_at (sys_elements s) i = Some (a, b) ->
    exists x y x' y', line_of sk i = Some ((x, y), (x', y')) /\
      nth_error (sys_variables s) a = Some x /\ nth_error (sys_variables s) (S a) = Some y /\
      nth_error (sys_variables s) b = Some x' /\ nth_error (sys_variables s) (S b) = Some y'.
  Proof.
    intros M H. destruct (line_at_item _ _ _ _ _ M H) as (p & q & Hit & Hp & Hq).
    destruct (point_of_at _ _ _ _ M Hp) as (x & y & E1 & V1 & V2).
    destruct (point_of_at _ _ _ _ M Hq) as (x' & y' & E2 & V3 & V4).
    exists x, y, x', y'. unfold line_of. now rewrite Hit, E1, E2.
  Qed.
  Lemma circle_of_at s sk i a b : models s sk -> circle_at (sys_elements s) i = Some (a, b) ->
    exists x y r, circle_of sk i = Some ((x, y), r) /\
      nth_error (sys_variables s) a = Some x /\ nth_error (sys_variables s) (S a) = Some y /\
      nth_error (sys_variables s) b = Some r.
  Proof.
    intros M H. destruct (circle_at_item _ _ _ _ _ M H) as (p & q & Hit & Hp & Hq).
    destruct (point_of_at _ _ _ _ M Hp) as (x & y & E1 & V1 & V2).
    destruct (len_at_item _ _ _ _ M Hq) as (r & E2 & V3 & _).
    exists x, y, r. unfold circle_of, length_of. now rewrite Hit, E1, E2.
  Qed.

  Lemma residual_eq s sk h r : models s sk ->
    nth_error (sk_relations sk) (ch_id h) = Some r -> ch_system h = sk_id sk ->
    ch_tag h = relation_tag r ->
    exists x, residual_of sk r = Some x /\ constraint_residual h s = Done x.
  Proof.
    intros M Hr Hs Ht. destruct (m_rel _ _ M _ _ Hr) as (idx & es & Hc & Hes & Hk).
    unfold constraint_residual. rewrite (m_id _ _ M), Hs, N.eqb_refl. simpl obind.
    rewrite (proj2 (oget_done _ _ _) Hc). simpl obind. rewrite Ht.
    destruct r.
    { (* coincidence: two expressions *)
      simpl in Hes.
      destruct (pt_at (sys_elements s) p) as [a|] eqn:Ha; [|discriminate].
      destruct (pt_at (sys_elements s) q) as [b|] eqn:Hb; [|discriminate].
      injection Hes; intros E.
      destruct (Hk 0 (VariableVariableEquality a b)) as [K0 _]; [now subst es|].
      destruct (Hk 1 (VariableVariableEquality (S a) (S b))) as [K1 _]; [now subst es|].
      destruct (point_of_at _ _ _ _ M Ha) as (x1 & y1 & E1 & V1 & V2).
      destruct (point_of_at _ _ _ _ M Hb) as (x2 & y2 & E2 & V3 & V4).
      simpl. rewrite (proj2 (oget_done _ _ _) K0), (proj2 (oget_done _ _ _) K1). simpl obind.
      assert (C : compile (sys_elements s) (Coincide p q) = Some es) by (simpl; rewrite Ha, Hb; auto).
      destruct (calculate_residual_ok _ _ _ _ (VariableVariableEquality a b) M C) as (xs & _ & Q1 & Q2);
        [subst es; simpl; auto|].
      destruct (calculate_residual_ok _ _ _ _ (VariableVariableEquality (S a) (S b)) M C) as (xs' & _ & Q3 & Q4);
        [subst es; simpl; auto|].
      rewrite Q1, Q3. simpl. rewrite E1, E2.
      rewrite (Q2 0 a x1), (Q2 1 b x2), (Q4 0 (S a) y1), (Q4 1 (S b) y2) by auto.
      eexists; split; reflexivity. }
    all: unfold tag_valency, relation_tag; simpl (1 <? 1); cbv iota.
    all: assert (C := Hes); unfold compile in Hes;
      repeat match goal with
      | H : match pt_at ?els ?p with _ => _ end = _ |- _ =>
          let E := fresh "E" in destruct (pt_at els p) eqn:E; [|discriminate];
          let P := fresh "P" in
          apply (point_of_at _ _ _ _ M) in E; destruct E as (? & ? & P & ? & ?)
      | H : match line_at ?els ?p with _ => _ end = _ |- _ =>
          let E := fresh "E" in destruct (line_at els p) as [[? ?]|] eqn:E; [|discriminate];
          let P := fresh "P" in
          apply (line_of_at _ _ _ _ _ M) in E; destruct E as (? & ? & ? & ? & P & ? & ? & ? & ?)
      | H : match circle_at ?els ?p with _ => _ end = _ |- _ =>
          let E := fresh "E" in destruct (circle_at els p) as [[? ?]|] eqn:E; [|discriminate];
          let P := fresh "P" in
          apply (circle_of_at _ _ _ _ _ M) in E; destruct E as (? & ? & ? & P & ? & ? & ?)
      end; injection Hes; clear Hes; intros Hes;
      match type of Hes with
      | [?e] = _ =>
        destruct (Hk 0 e) as [K0 _]; [now subst es|]; rewrite Nat.add_0_r in K0;
        rewrite (proj2 (oget_done _ _ _) K0); simpl obind;
        destruct (calculate_residual_ok _ _ _ _ e M C) as (xs & _ & Q1 & Q2);
          [subst es; simpl; auto|]; rewrite Q1
      end;
      unfold residual_of;
      repeat match goal with
      | P : point_of _ _ = Some _ |- _ => rewrite P; clear P
      | P : line_of _ _ = Some _ |- _ => rewrite P; clear P
      | P : circle_of _ _ = Some _ |- _ => rewrite P; clear P
      end; simpl;
      unfold lct_rg, ssle_rg, pci_rg, ppd_rg, vatan2, cross, dot, hypot2, vsub, bpt; simpl;
      repeat match goal with
      | Q : forall k v x, _ -> _ -> buffer ?xs k = x |- context [buffer ?xs ?k] =>
          erewrite (Q k) by (reflexivity || eassumption)
      end;
      eexists; split; try reflexivity.
    unfold sq, dot; simpl. match goal with |- context [(?a =? ?b)%num] => destruct (a =? b)%num end; reflexivity.
  Qed.
End Calls.
