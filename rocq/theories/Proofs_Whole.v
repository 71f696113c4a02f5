(** What solving without a decomposer asks of the optimizer, and what it does
    with the answers: proofs for C50-C52. *)
From Coq Require Import List Arith NArith Lia Permutation.
From Verif Require Import Num Outcome Lib ModelExpr ModelGraph ModelSystem ModelSolve ModelApi
  Spec_Sketch Spec_Graph Spec_Solver Spec_History Spec_Components Spec_Pass
  Proofs_Graph Proofs_System Proofs_Calls Proofs_Solve Proofs_Safe Proofs_Step Proofs_History Proofs_Api Proofs_Components.
Import ListNotations.

Section Whole.
  Context {F : Type} {NF : Num F}.
  Implicit Types (s : system F) (sk : sketch F) (env : solver_env F).

  (** ** The elements of a group are points and lengths *)
  Lemma ends_primitive s sk i j : models s sk -> i < length (sk_items sk) -> In j (ends (sk_items sk) i) ->
    (exists a, pt_at (sys_elements s) j = Some a) \/ exists a, len_at (sys_elements s) j = Some a.
  Proof.
    intros M L Hj. destruct (nth_error_ex _ _ L) as [it Hit]. unfold ends in Hj. rewrite Hit in Hj.
    destruct (item_rep_nth _ _ _ _ M Hit) as (e & He & R).
    destruct it, e; simpl in R; try contradiction; destruct Hj as [<-|Hj];
      try (destruct Hj as [<-|[]]); try (destruct Hj); unfold pt_at, len_at; try rewrite He; eauto.
    all: destruct R as [R1 R2]; unfold pt_at, len_at in R1, R2; rewrite ?R1, ?R2; eauto.
  Qed.
  Lemma group_primitive s sk c id : models s sk -> In c (components (sys_graph s)) -> In id (c_elements c) ->
    (exists a, pt_at (sys_elements s) id = Some a) \/ exists a, len_at (sys_elements s) id = Some a.
  Proof.
    intros M Hc Hid. assert (W := m_graph _ _ M). assert (P := wg_part _ W).
    apply In_nth_error in Hc. destruct Hc as [ci Hci].
    assert (L := p_range _ _ _ _ P _ _ _ Hci Hid). destruct (nth_error_ex _ _ L) as [x Hx].
    assert (Nx : nth_error (element_component (sys_graph s)) id <> Some None).
    { assert (x <> None) by (apply (p_cov _ _ _ _ P _ _ Hx); eauto). congruence. }
    rewrite (wg_len _ W) in L. apply (wg_con _ W _ L) in Nx. destruct Nx as (gc & Hgc & Hin).
    apply In_nth_error in Hgc. destruct Hgc as [k Hk]. assert (Lk := nth_error_lt _ _ _ Hk).
    rewrite (m_gclen _ _ M) in Lk. destruct (nth_error_ex _ _ Lk) as [r Hr].
    rewrite (m_ginc _ _ M _ _ _ Hr Hk) in Hin. unfold prims in Hin. apply in_flat_map in Hin.
    destruct Hin as (i & Hi & Hie). eapply ends_primitive; eauto.
    destruct (m_rel _ _ M _ _ Hr) as (idx & es & _ & Hes & _).
    rewrite (Forall2_length _ _ _ (m_items _ _ M)). eapply compile_range; eauto.
  Qed.
  (** The element of a group a variable belongs to *)
  Lemma group_variable s sk c id e v : models s sk -> In c (components (sys_graph s)) -> In id (c_elements c) ->
    nth_error (sys_elements s) id = Some e -> In v (element_variables e) ->
    nth_error (sys_variable_to_primitive s) v = Some id.
  Proof.
    intros M Hc Hid He Hv. destruct (group_primitive _ _ _ _ M Hc Hid) as [[a Ha]|[a Ha]].
    - destruct (pt_at_item _ _ _ _ M Ha) as (x & y & _ & _ & _ & P0 & P1).
      unfold pt_at in Ha. rewrite He in Ha. destruct e; try discriminate. injection Ha as ->.
      destruct Hv as [<-|[<-|[]]]; auto.
    - destruct (len_at_item _ _ _ _ M Ha) as (x & _ & _ & P0).
      unfold len_at in Ha. rewrite He in Ha. destruct e; try discriminate. injection Ha as ->.
      destruct Hv as [<-|[]]; auto.
  Qed.
  Lemma group_variable_unique s sk ci cj c c' id id' e e' v : models s sk ->
    nth_error (components (sys_graph s)) ci = Some c -> nth_error (components (sys_graph s)) cj = Some c' ->
    In id (c_elements c) -> In id' (c_elements c') ->
    nth_error (sys_elements s) id = Some e -> nth_error (sys_elements s) id' = Some e' ->
    In v (element_variables e) -> In v (element_variables e') -> ci = cj.
  Proof.
    intros M H1 H2 H3 H4 H5 H6 H7 H8.
    pose proof (group_variable _ _ _ _ _ _ M (nth_error_In _ _ H1) H3 H5 H7) as Q.
    pose proof (group_variable _ _ _ _ _ _ M (nth_error_In _ _ H2) H4 H6 H8) as Q'.
    rewrite Q in Q'. injection Q' as ->. eapply (p_disj _ _ _ _ (wg_part _ (m_graph _ _ M))); eauto.
  Qed.

  (** ** One group *)
  (** What solving group [c] amounts to, seen from the coordinates [vs] at the end *)
  Record handled env (opts : options) (scale : F) (s0 : system F) (vs : list F) (c : component)
      (free es : list nat) (vt values y : list F) : Prop := {
    hd_free : component_free_variables s0 (c_elements c) = Done free;
    hd_es : component_expressions s0 (c_constraints c) = Done es;
    hd_len : length vt = length (sys_variables_transformed s0);
    hd_vt : forall v, ~ writable s0 v -> nth_error vt v = nth_error (sys_variables_transformed s0) v;
    hd_plain : o_perturb opts = false -> vt = sys_variables_transformed s0;
    hd_values : omap (oget vt) free = Done values;
    hd_call : env_optimize env (o_optimizer opts)
      (subsystem_problem (Subsystem vt (sys_expressions_transformed s0) es free)) values = Done y;
    hd_written : forall i v, nth_error free i = Some v ->
      exists a, nth_error y i = Some a /\ nth_error vs v = Some (nmul scale a)
  }.

  Lemma component_handled env opts scale s0 sk rng vs vt rng' s' c :
    o_decomposer opts = DecomposeNone -> models s0 sk ->
    In c (components (sys_graph s0)) -> c_elements c <> [] ->
    length vt = length (sys_variables_transformed s0) ->
    (forall v, ~ writable s0 v -> nth_error vt v = nth_error (sys_variables_transformed s0) v) ->
    (o_perturb opts = false -> vt = sys_variables_transformed s0) ->
    solve_component env opts scale (rng, with_values vs vt s0) c = Done (rng', s') ->
    exists vs' vt' free es values y, s' = with_values vs' vt' s0 /\ length vs' = length vs /\
      handled env opts scale s0 vs' c free es vt' values y /\
      forall v, ~ In v free -> nth_error vs' v = nth_error vs v.
  Proof.
    intros Ed M Hc Ne L U Pl H. unfold solve_component in H.
    destruct (c_elements c) as [|e0 es0] eqn:Ec; [congruence|]. rewrite <- Ec in H.
    apply obind_done in H. destruct H as (free & Hf & H).
    assert (Hf' : component_free_variables s0 (c_elements c) = Done free) by exact Hf.
    pose proof (component_free_spec _ _ _ Hf') as [N Hfr].
    apply obind_done in H. destruct H as ([rng1 vt1] & Hp & H).
    apply obind_done in H. destruct H as (s2 & Hs2 & H). inversion H; subst rng' s'. clear H.
    rewrite Ed in Hs2. unfold solve_none in Hs2.
    apply obind_done in Hs2. destruct Hs2 as (values & Hv & H).
    apply obind_done in H. destruct H as (es & He & H).
    apply obind_done in H. destruct H as (y & Ho & H).
    apply obind_done in H. destruct H as (vs' & Hw & H). inversion H; subst s2. clear H.
    unfold write_back in Hw. simpl in Hw, Ho, Hv. unfold subsystem_new in Ho. rewrite index_set_nodup in * by auto.
    apply (write_spec (fun x => nmul scale x)) in Hw. destruct Hw as (Lw & Uw & W).
    assert (P1 : length vt1 = length vt /\ forall v, ~ In v free -> nth_error vt1 v = nth_error vt v).
    { simpl in Hp. destruct (o_perturb opts); [now apply perturb_spec in Hp|inversion Hp; subst; auto]. }
    destruct P1 as [L1 U1].
    exists vs', vt1, free, es, values, y. split; [reflexivity|]. split; [auto|]. split; [|exact Uw].
    constructor; auto.
    - congruence.
    - intros v Nv. rewrite U1; auto. intros Hin. apply Nv. apply Hfr in Hin.
      destruct Hin as (id & e & Q1 & Q2 & Q3 & Q4). exists c, id, e. auto.
    - intros Eb. simpl in Hp. rewrite Eb in Hp. inversion Hp; subst. auto.
    - intros i v Hi. exact (W N i v Hi).
  Qed.

  (** ** The loop over the groups *)
  Lemma solve_handled env opts s sk s' : o_decomposer opts = DecomposeNone -> models s sk ->
    solve env opts s = Done s' ->
    let scale := calculate_system_scale s in let s0 := scale_system scale s in
    exists vs vt, s' = with_values vs vt s0 /\ length vs = length (sys_variables s) /\
      (forall v, ~ writable s v -> nth_error vs v = nth_error (sys_variables s) v) /\
      forall c, In c (components (sys_graph s)) -> c_elements c <> [] ->
        exists free es vt' values y, handled env opts scale s0 vs c free es vt' values y.
  Proof.
    intros Ed M0 H scale s0. unfold solve in H. fold scale in H. fold s0 in H.
    assert (M : models s0 sk) by (destruct M0; constructor; auto).
    apply obind_done in H. destruct H as ([rng s1] & H & E). inversion E; subst s1. clear E.
    pose proof (ofold_inv_prefix (fun (pre : list component) (st : N * system F) =>
      exists vs vt, snd st = with_values vs vt s0 /\ length vs = length (sys_variables s) /\
        length vt = length (sys_variables_transformed s0) /\
        (forall v, ~ writable s0 v -> nth_error vt v = nth_error (sys_variables_transformed s0) v) /\
        (o_perturb opts = false -> vt = sys_variables_transformed s0) /\
        (forall v, ~ writable s0 v -> nth_error vs v = nth_error (sys_variables s) v) /\
        forall c, In c pre -> c_elements c <> [] ->
          exists free es vt' values y, handled env opts scale s0 vs c free es vt' values y)
      (solve_component env opts scale) (components (sys_graph s0))) as G.
    destruct (G) with (s := (42%N, s0)) (s' := (rng, s')) as (vs & vt & E1 & E2 & _ & _ & _ & E3 & E4); auto.
    2:{ exists (sys_variables s), (sys_variables_transformed s0).
        repeat split; auto. intros c []. }
    2:{ exists vs, vt. auto. }
    clear G H. intros pre c post [r1 s1] [r2 s2] Epre (vs & vt & Es & L1 & L2 & U & Pl & W & Hd) Hst.
    cbn [snd] in *. subst s1.
    assert (Hci : nth_error (components (sys_graph s0)) (length pre) = Some c).
    { rewrite Epre, nth_error_app2, Nat.sub_diag by lia. reflexivity. }
    destruct (c_elements c) as [|e0 es0] eqn:Ec.
    { exists vs, vt. unfold solve_component in Hst. rewrite Ec in Hst. inversion Hst; subst.
      repeat split; auto. intros c' Hc' Ne. apply in_app_iff in Hc'. destruct Hc' as [Hc'|[<-|[]]]; [auto|congruence]. }
    destruct (component_handled _ _ _ _ _ _ _ _ _ _ _ Ed M (nth_error_In _ _ Hci) ltac:(congruence) L2 U Pl Hst)
      as (vs' & vt' & free & es & values & y & -> & L3 & Hh & Fr).
    exists vs', vt'. split; [reflexivity|]. split; [congruence|].
    split; [apply (hd_len _ _ _ _ _ _ _ _ _ _ _ Hh)|]. split; [apply (hd_vt _ _ _ _ _ _ _ _ _ _ _ Hh)|].
    split; [apply (hd_plain _ _ _ _ _ _ _ _ _ _ _ Hh)|].
    pose proof (component_free_spec _ _ _ (hd_free _ _ _ _ _ _ _ _ _ _ _ Hh)) as [N Hfr].
    split.
    { intros v Nv. rewrite Fr; [now apply W|]. intros Hin. apply Nv. apply Hfr in Hin.
      destruct Hin as (id & e & Q1 & Q2 & Q3 & Q4). exists c, id, e. split; [eapply nth_error_In; eauto|auto]. }
    intros c' Hc' Ne. apply in_app_iff in Hc'. destruct Hc' as [Hc'|[<-|[]]]; [|exists free, es, vt', values, y; exact Hh].
    destruct (Hd c' Hc' Ne) as (free1 & es1 & vt1 & values1 & y1 & Hh1).
    exists free1, es1, vt1, values1, y1. destruct Hh1. constructor; auto.
    intros i v Hi. destruct (hd_written0 i v Hi) as (a & Ha & Hva). exists a. split; [auto|].
    rewrite Fr; [auto|]. intros Hin. apply Hfr in Hin. destruct Hin as (id & e & Q1 & Q2 & Q3 & Q4).
    apply component_free_spec in hd_free0. destruct hd_free0 as [_ Hfr1].
    apply nth_error_In in Hi. apply Hfr1 in Hi. destruct Hi as (id1 & e1 & R1 & R2 & R3 & R4).
    apply In_nth_error in Hc'. destruct Hc' as [j Hj].
    assert (Hj' : nth_error (components (sys_graph s0)) j = Some c').
    { rewrite Epre. apply nth_error_app_old. auto. }
    assert (j = length pre) by (eapply group_variable_unique; [exact M|exact Hj'|exact Hci|exact R1| | | | |]; eauto).
    apply nth_error_lt in Hj. lia.
  Qed.

  (** ** The variables of the constraints of a group are those of its elements *)
  Lemma compile_prims s sk r es e v : models s sk -> compile (sys_elements s) r = Some es ->
    In e es -> In v (variable_indices e) ->
    exists id el, In id (prims (sk_items sk) r) /\ nth_error (sys_elements s) id = Some el /\
      In v (element_variables el).
  Proof.
    intros M Hc He Hv.
    assert (P : forall i a w, In i (relation_items r) -> pt_at (sys_elements s) i = Some a -> w = a \/ w = S a ->
      exists id el, In id (prims (sk_items sk) r) /\ nth_error (sys_elements s) id = Some el /\
        In w (element_variables el)).
    { intros i a w Hi Ha Hw. destruct (pt_at_item _ _ _ _ M Ha) as (x & y & Hit & _).
      unfold pt_at in Ha. destruct (nth_error (sys_elements s) i) as [[]|] eqn:E; try discriminate. injection Ha as ->.
      exists i, (EPoint a). split; [|split; [auto|simpl; intuition]].
      unfold prims. apply in_flat_map. exists i. split; [auto|]. unfold ends. rewrite Hit. simpl; auto. }
    assert (L : forall i a b w, In i (relation_items r) -> line_at (sys_elements s) i = Some (a, b) ->
      w = a \/ w = S a \/ w = b \/ w = S b ->
      exists id el, In id (prims (sk_items sk) r) /\ nth_error (sys_elements s) id = Some el /\
        In w (element_variables el)).
    { intros i a b w Hi Ha Hw. destruct (line_at_item _ _ _ _ _ M Ha) as (p & q & Hit & Hp & Hq).
      unfold pt_at in Hp, Hq.
      destruct (nth_error (sys_elements s) p) as [[]|] eqn:Ep; try discriminate. injection Hp as ->.
      destruct (nth_error (sys_elements s) q) as [[]|] eqn:Eq; try discriminate. injection Hq as ->.
      assert (D : w = a \/ w = S a \/ (w = b \/ w = S b)) by tauto.
      assert (In p (prims (sk_items sk) r) /\ In q (prims (sk_items sk) r)) as [I1 I2].
      { unfold prims. split; apply in_flat_map; exists i; (split; [auto|]); unfold ends; rewrite Hit; simpl; auto. }
      destruct D as [D|[D|D]]; [exists p, (EPoint a)|exists p, (EPoint a)|exists q, (EPoint b)];
        (split; [auto|split; [auto|simpl; intuition]]). }
    assert (C : forall i a b w, In i (relation_items r) -> circle_at (sys_elements s) i = Some (a, b) ->
      w = a \/ w = S a \/ w = b ->
      exists id el, In id (prims (sk_items sk) r) /\ nth_error (sys_elements s) id = Some el /\
        In w (element_variables el)).
    { intros i a b w Hi Ha Hw. destruct (circle_at_item _ _ _ _ _ M Ha) as (p & q & Hit & Hp & Hq).
      unfold pt_at in Hp. unfold len_at in Hq.
      destruct (nth_error (sys_elements s) p) as [[]|] eqn:Ep; try discriminate. injection Hp as ->.
      destruct (nth_error (sys_elements s) q) as [[]|] eqn:Eq; try discriminate. injection Hq as ->.
      assert (In p (prims (sk_items sk) r) /\ In q (prims (sk_items sk) r)) as [I1 I2].
      { unfold prims. split; apply in_flat_map; exists i; (split; [auto|]); unfold ends; rewrite Hit; simpl; auto. }
      destruct Hw as [D|[D|D]]; [exists p, (EPoint a)|exists p, (EPoint a)|exists q, (ELength b)];
        (split; [auto|split; [auto|simpl; intuition]]). }
    destruct r; simpl in Hc, P, L, C;
    repeat match goal with
    | H : match pt_at ?els ?p with _ => _ end = _ |- _ =>
        let E := fresh "E" in destruct (pt_at els p) eqn:E; [|discriminate]
    | H : match line_at ?els ?p with _ => _ end = _ |- _ =>
        let E := fresh "E" in destruct (line_at els p) as [[? ?]|] eqn:E; [|discriminate]
    | H : match circle_at ?els ?p with _ => _ end = _ |- _ =>
        let E := fresh "E" in destruct (circle_at els p) as [[? ?]|] eqn:E; [|discriminate]
    end; injection Hc as <-; simpl in He;
    repeat match goal with H : _ \/ _ |- _ => destruct H as [H|H] | H : False |- _ => destruct H end;
    subst e; simpl in Hv;
    repeat match goal with H : _ \/ _ |- _ => destruct H as [H|H] | H : False |- _ => destruct H end; subst v;
    match goal with
    | E : pt_at _ ?i = Some ?a |- context [In ?a (element_variables _)] => apply (P i a a); simpl; auto 10
    | E : pt_at _ ?i = Some ?a |- context [In (S ?a) (element_variables _)] => apply (P i a (S a)); simpl; auto 10
    | E : line_at _ ?i = Some (?a, ?b) |- context [In ?a (element_variables _)] => apply (L i a b a); simpl; auto 10
    | E : line_at _ ?i = Some (?a, ?b) |- context [In (S ?a) (element_variables _)] => apply (L i a b (S a)); simpl; auto 10
    | E : line_at _ ?i = Some (?a, ?b) |- context [In ?b (element_variables _)] => apply (L i a b b); simpl; auto 10
    | E : line_at _ ?i = Some (?a, ?b) |- context [In (S ?b) (element_variables _)] => apply (L i a b (S b)); simpl; auto 10
    | E : circle_at _ ?i = Some (?a, ?b) |- context [In ?a (element_variables _)] => apply (C i a b a); simpl; auto 10
    | E : circle_at _ ?i = Some (?a, ?b) |- context [In (S ?a) (element_variables _)] => apply (C i a b (S a)); simpl; auto 10
    | E : circle_at _ ?i = Some (?a, ?b) |- context [In ?b (element_variables _)] => apply (C i a b b); simpl; auto 10
    end.
  Qed.

  (** The expressions of constraint number [k] *)
  Lemma component_expressions_in s cs es e : component_expressions s cs = Done es ->
    In e es -> exists k ec o, In k cs /\ nth_error (sys_constraints s) k = Some ec /\
      o < tag_valency (ec_tag ec) /\ e = expressions_idx ec + o.
  Proof.
    intros H He. unfold component_expressions in H. apply obind_done in H. destruct H as (ess & Hm & H).
    inversion H; subst es. apply in_concat in He. destruct He as (l & Hl & He).
    destruct (omap_in _ _ _ _ Hm Hl) as (k & Hk & Hf). apply obind_done in Hf. destruct Hf as (ec & Hec & Hf).
    inversion Hf; subst l. apply in_map_iff in He. destruct He as (o & <- & Ho). apply in_seq in Ho.
    exists k, ec, o. split; [auto|]. split; [now apply oget_done|]. split; [lia|reflexivity].
  Qed.

  (** Every group holds all points and lengths of its constraints. *)
  Definition gathered (g : graph) : Prop :=
    forall ci k es e, holds_constraint g ci k -> nth_error (hyperedges g) k = Some es -> In e es -> holds_element g ci e.
  Lemma closed_gathered g : closed g -> gathered g.
  Proof. intros C ci k es e Hh Hy He. exact (cl_ec _ C _ _ (cl_con _ C _ _ _ _ Hh Hy He)). Qed.
  Lemma group_expression_variables s sk c es e x v : models s sk -> gathered (sys_graph s) ->
    In c (components (sys_graph s)) -> component_expressions s (c_constraints c) = Done es -> In e es ->
    nth_error (sys_expressions s) e = Some x -> In v (variable_indices x) ->
    exists id el, In id (c_elements c) /\ nth_error (sys_elements s) id = Some el /\ In v (element_variables el).
  Proof.
    intros M C Hc Hes He Hx Hv. destruct (component_expressions_in _ _ _ _ Hes He) as (k & ec & o & Hk & Hec & Ho & ->).
    assert (Lk : k < length (sk_relations sk)) by (rewrite <- (m_clen _ _ M); eapply nth_error_lt; eauto).
    destruct (nth_error_ex _ _ Lk) as [r Hr]. destruct (m_rel _ _ M _ _ Hr) as (idx & es' & Q1 & Q2 & Q3).
    rewrite Q1 in Hec. injection Hec as <-. simpl in *.
    assert (Lo : o < length es') by (rewrite (compile_length _ _ _ Q2); auto).
    destruct (nth_error_ex _ _ Lo) as [x' Hx']. destruct (Q3 _ _ Hx') as [Hx'' _].
    rewrite Hx in Hx''. injection Hx'' as <-.
    destruct (compile_prims _ _ _ _ _ _ M Q2 (nth_error_In _ _ Hx') Hv) as (id & el & P1 & P2 & P3).
    exists id, el. split; [|auto].
    assert (Lg : k < length (g_constraints (sys_graph s))) by now rewrite (m_gclen _ _ M).
    destruct (nth_error_ex _ _ Lg) as [gc Hgc].
    apply In_nth_error in Hc. destruct Hc as [ci Hci].
    assert (Hh : holds_constraint (sys_graph s) ci k) by (exists c; auto).
    assert (Hy : nth_error (hyperedges (sys_graph s)) k = Some (prims (sk_items sk) r)).
    { unfold hyperedges. rewrite nth_error_map, Hgc. simpl. now rewrite (m_ginc _ _ M _ _ _ Hr Hgc). }
    pose proof (C _ _ _ _ Hh Hy P1) as (c' & Hc' & Hin).
    rewrite Hci in Hc'. injection Hc' as <-. auto.
  Qed.
  (** A group that holds a constraint holds an element. *)
  Lemma group_not_empty s sk c k : models s sk -> gathered (sys_graph s) -> In c (components (sys_graph s)) ->
    In k (c_constraints c) -> c_elements c <> [].
  Proof.
    intros M C Hc Hk. apply In_nth_error in Hc. destruct Hc as [ci Hci].
    assert (Hh : holds_constraint (sys_graph s) ci k) by (exists c; auto).
    assert (Lg : k < length (g_constraints (sys_graph s))).
    { apply (p_ccov _ _ _ _ (wg_part _ (m_graph _ _ M))). eauto. }
    assert (Lk := Lg). rewrite (m_gclen _ _ M) in Lk.
    destruct (nth_error_ex _ _ Lg) as [gc Hgc], (nth_error_ex _ _ Lk) as [r Hr].
    assert (Hy : nth_error (hyperedges (sys_graph s)) k = Some (prims (sk_items sk) r)).
    { unfold hyperedges. rewrite nth_error_map, Hgc. simpl. now rewrite (m_ginc _ _ M _ _ _ Hr Hgc). }
    destruct (m_rel _ _ M _ _ Hr) as (idx & es' & _ & Q2 & _).
    destruct (prims_range _ _ _ _ M Q2) as [Np _].
    destruct (prims (sk_items sk) r) as [|p ps] eqn:Ep; [congruence|].
    pose proof (C _ _ _ _ Hh Hy (or_introl eq_refl)) as (c' & Hc' & Hin).
    rewrite Hci in Hc'. injection Hc' as <-. intros E. rewrite E in Hin. destruct Hin.
  Qed.

  (** ** What the optimizer is asked *)
  (** A coordinate of an element of the group is either free in it or fixed. *)
  Lemma group_free_or_fixed s sk c free id el v : models s sk -> In c (components (sys_graph s)) ->
    component_free_variables s (c_elements c) = Done free ->
    In id (c_elements c) -> nth_error (sys_elements s) id = Some el -> In v (element_variables el) ->
    In v free \/ ~ writable s v.
  Proof.
    intros M Hc Hf Hid Hel Hv. apply component_free_spec in Hf. destruct Hf as [_ Hf].
    destruct (in_dec Nat.eq_dec v (sys_fixed s)) as [Fx|Fx].
    - right. intros (c' & id' & e' & _ & _ & _ & _ & Nf). auto.
    - left. apply Hf. exists id, el. auto.
  Qed.

  Lemma start_residuals env opts scale s sk vs c free es vt values y : models s sk ->
    o_perturb opts = false -> In c (components (sys_graph s)) ->
    handled env opts scale (scale_system scale s) vs c free es vt values y ->
    calculate_residuals (subsystem_problem (Subsystem vt (sys_expressions_transformed (scale_system scale s)) es free)) values
    = omap (residual_in (scale_system scale s)) es.
  Proof.
    intros M Eb Hc H. pose proof (hd_plain _ _ _ _ _ _ _ _ _ _ _ H Eb) as E. subst vt.
    simpl. unfold ss_residuals. simpl. apply omap_ext. intros e He. unfold residual_in.
    change (sys_expressions_transformed (scale_system scale s)) with (map (transform (nunit / scale)%num) (sys_expressions s)).
    destruct (oget (map (transform (nunit / scale)%num) (sys_expressions s)) e) as [x| |] eqn:Ex; auto. simpl.
    apply oget_done in Ex. rewrite nth_error_map in Ex.
    destruct (nth_error (sys_expressions s) e) as [x0|] eqn:Ex0; [|discriminate]. injection Ex as <-.
    apply residual_map. intros v Hv. rewrite transform_indices in Hv.
    assert (Lv := expr_vars_range _ _ _ _ _ M Ex0 Hv).
    unfold ss_map, index_set_map, identity_map. simpl.
    pose proof (hd_values _ _ _ _ _ _ _ _ _ _ _ H) as Hvals.
    destruct (nth_error_ex (map (fun w : F => (w * (nunit / scale))%num) (sys_variables s)) v) as [a Ha]; [now rewrite map_length|].
    destruct (index_of free v) as [i|] eqn:Ei.
    - apply index_of_some in Ei. destruct (omap_nth' _ _ _ Hvals _ _ Ei) as (b & Hb & Hi).
      apply oget_done in Hi. simpl in Hi. rewrite Ha in Hi. injection Hi as <-.
      unfold oget. rewrite Hb, Ha. simpl. do 2 eexists; eauto.
    - unfold oget. rewrite Ha. simpl. do 2 eexists; eauto.
  Qed.
End Whole.
