(** The recursive-assembly plan covers every constraint of the component once. *)
From Coq Require Import List Arith ZArith Bool Lia Permutation.
From Verif Require Import Num Outcome Lib ModelExpr ModelGraph ModelSystem ModelSolve ModelAssembly Spec_Assembly
  Proofs_Assembly.
Import ListNotations.
Local Open Scope nat_scope.

Section Plan.
  Variable order : list nat -> list nat.
  Hypothesis order_perm : forall l, Permutation (order l) l.
  Variables (G : graph) (V0 E0 : list nat).
  Hypothesis closed : closed_part G V0 E0.
  Local Notation nc := (length (g_constraints G)).
  Local Notation ne := (length (g_elements G)).

  (** Constraint [c] of the component as it was at first *)
  Definition first_elements (c : nat) (us : list nat) : Prop :=
    exists gc, nth_error (g_constraints G) c = Some gc /\ incident_elements gc = us.

  (** A constraint is as it was at first, and its elements know it *)
  Definition untouched (g : wgraph) (edges vertices : list nat) (c : nat) : Prop :=
    In c edges /\ exists w, nth_error (wg_constraints g) c = Some w /\ first_elements c (wc_elements w) /\
      incl (wc_elements w) vertices /\
      forall v, In v (wc_elements w) -> exists e, nth_error (wg_elements g) v = Some e /\ In c (we_constraints e).

  Definition covers (st : plan_step) : Prop :=
    forall c us, In c (st_constraints st) -> first_elements c us -> incl us (st_elements st).

  Record covering (st : clusters_state) : Prop := {
    cv_size : ne <= length (wg_elements (dc_graph st)) /\ nc <= length (wg_constraints (dc_graph st));
    cv_handled : dc_constraints_handled st = flat_map st_constraints (dc_steps st);
    cv_once : NoDup (dc_constraints_handled st);
    cv_ours : incl (dc_constraints_handled st) E0;
    cv_left : forall c, In c E0 -> ~ In c (dc_constraints_handled st) ->
      untouched (dc_graph st) (dc_edges st) (dc_vertices st) c;
    cv_edges : NoDup (dc_edges st) /\ forall c, In c (dc_edges st) -> c < nc -> In c E0;
    cv_steps : Forall covers (dc_steps st)
  }.

  Lemma first_range c us u : In c E0 -> first_elements c us -> In u us -> In u V0 /\ u < ne.
  Proof.
    intros Hc (gc & Hg & <-) Hu. pose proof (cp_inside _ _ _ closed _ _ Hc Hg u Hu).
    split; [auto|]. now apply (cp_vertices _ _ _ closed).
  Qed.
  Lemma E0_range c : In c E0 -> c < nc.
  Proof. apply (cp_edges _ _ _ closed). Qed.

  Section Cluster.
    Variables (sub : list nat) (st : clusters_state) (so : sorting_out) (key : nat).
    Hypothesis C : covering st.
    Hypothesis Hsub : incl sub (dc_vertices st).
    Local Notation g := (dc_graph st).
    Local Notation edges := (dc_edges st).
    Hypothesis SO : sorted_out g nc ne edges sub (dc_constraints_handled st) (order sub) so.

    Lemma SO_all v e id : In v sub -> nth_error (wg_elements g) v = Some e -> In id (we_constraints e) ->
      id < nc -> enclosed g edges sub id -> In id (so_constraints_handled so).
    Proof.
      intros Hv. eapply (sd_all _ _ _ _ _ _ _ _ SO). now rewrite (order_In order order_perm).
    Qed.
    Lemma SO_core v : In v (so_core so) -> In v sub /\ exists e, nth_error (wg_elements g) v = Some e /\
        forall id, In id (we_constraints e) -> In id edges -> enclosed g edges sub id.
    Proof.
      intros Hv. destruct (sd_core _ _ _ _ _ _ _ _ SO v Hv) as [H1 H2]. rewrite (order_In order order_perm) in H1. auto.
    Qed.
    Lemma handled_more c : In c (dc_constraints_handled st) -> In c (so_constraints_handled so).
    Proof. intros H. rewrite (sd_handled _ _ _ _ _ _ _ _ SO). apply in_app_iff. auto. Qed.
    Lemma left_was c : In c E0 -> ~ In c (so_constraints_handled so) -> untouched g edges (dc_vertices st) c.
    Proof. intros Hc Hh. apply (cv_left _ C); [auto|]. intros H. apply Hh. now apply handled_more. Qed.
    (** What is left has no element in the core *)
    Lemma left_core c w u : In c E0 -> ~ In c (so_constraints_handled so) ->
      nth_error (wg_constraints g) c = Some w -> In u (wc_elements w) -> ~ In u (so_core so).
    Proof.
      intros Hc Hh Hw Hu Hk. destruct (left_was c Hc Hh) as (He & w' & Hw' & _ & _ & Hi).
      rewrite Hw in Hw'. inversion Hw'; subst w'. destruct (Hi u Hu) as (e & H1 & H2).
      destruct (SO_core u Hk) as (K1 & e' & K2 & K3). rewrite H1 in K2. inversion K2; subst e'.
      apply Hh. apply (SO_all u e c K1 H1 H2); [now apply E0_range|auto].
    Qed.

    Lemma new_constraint c : In c (so_constraints so) -> In c E0 /\ c < nc /\ ~ In c (dc_constraints_handled st) /\
      forall us, first_elements c us -> incl us (so_real so).
    Proof.
      intros Hc. destruct (sd_enclosed _ _ _ _ _ _ _ _ SO c Hc) as (Hl & He & w & Hw & Hi).
      assert (H0 : In c E0) by now apply (cv_edges _ C).
      assert (Hn : ~ In c (dc_constraints_handled st)).
      { pose proof (sd_once _ _ _ _ _ _ _ _ SO) as N. rewrite (sd_handled _ _ _ _ _ _ _ _ SO) in N.
        intros K. apply in_split in Hc. destruct Hc as (l1 & l2 & El). rewrite El, app_assoc in N.
        apply NoDup_remove_2 in N. apply N. apply in_app_iff. left. apply in_app_iff. auto. }
      split; [auto|]. split; [auto|]. split; [auto|]. intros us Hf u Hu.
      destruct (cv_left _ C c H0 Hn) as (_ & w' & Hw' & Hf' & _). rewrite Hw in Hw'. inversion Hw'; subst w'.
      destruct Hf as (gc & Hg & <-), Hf' as (gc' & Hg' & E). rewrite Hg in Hg'. inversion Hg'; subst gc'.
      rewrite (sd_real _ _ _ _ _ _ _ _ SO). apply filter_In. split.
      - rewrite (order_In order order_perm). apply Hi. now rewrite <- E.
      - apply Nat.ltb_lt. apply (first_range c (incident_elements gc) u); [auto|exists gc; auto|auto].
    Qed.

    (** Dropping the constraints inside the core *)
    Definition dropped (edges' : list nat) : Prop :=
      NoDup edges' /\ incl edges' edges /\
      forall c, In c E0 -> ~ In c (so_constraints_handled so) -> In c edges'.
    Lemma drop_core_edges_ok v edges' edges'' : In v (so_core so) -> dropped edges' ->
      drop_core_edges g (so_core so) v edges' = Done edges'' -> dropped edges''.
    Proof.
      intros Hv D H. unfold drop_core_edges in H. apply obind_done in H. destruct H as (e & He & H). apply oget_done in He.
      revert D. revert H. generalize edges' as l0, edges'' as l1. intros l0 l1 H D. revert H.
      apply (ofold_inv dropped); [|exact D]. clear l0 l1 D. intros l id l' Hid (D1 & D2 & D3) H.
      apply obind_done in H. destruct H as (w & Hw & H). apply oget_done in Hw. inversion H; subst l'. clear H.
      destruct (forallb _ (wc_elements w)) eqn:Ef; [|repeat split; auto].
      apply forallb_mem in Ef. split; [now apply set_remove_NoDup|]. split.
      - intros x Hx. apply set_remove_In in Hx. now apply D2.
      - intros c Hc Hh. apply set_remove_In. split; [|auto]. intros ->.
        destruct (SO_core v Hv) as (K1 & e' & K2 & K3). rewrite He in K2. inversion K2; subst e'.
        apply Hh. apply (SO_all v e id K1 He Hid); [now apply E0_range|]. apply K3; [auto|].
        now apply (left_was id Hc Hh).
    Qed.
    Lemma core_vertices_ok m0 m : dropped (mg_edges m0) ->
      ofold (core_vertex g ne key (so_core so)) (so_core so) m0 = Done m -> dropped (mg_edges m).
    Proof.
      intros D. apply (ofold_inv (fun m => dropped (mg_edges m))); [|auto].
      intros m1 v m2 Hv D1 H. unfold core_vertex in H.
      apply obind_done in H. destruct H as (ed & Hed & H).
      apply obind_done in H. destruct H as (old & _ & H). cbv zeta in H.
      apply obind_done in H. destruct H as (m3 & Hm & H). inversion H; subst m2. cbn [mg_edges]. clear H.
      assert (D2 : dropped ed).
      { destruct (v <? ne); [eapply drop_core_edges_ok; eauto|now inversion Hed; subst]. }
      destruct (old =? key); [inversion Hm; subst m3; auto|].
      unfold merge_cluster in Hm. cbn [mg_edges mg_owning mg_owned mg_frontier mg_on_frontiers] in Hm.
      apply obind_done in Hm. destruct Hm as (xs & Hx & Hm). cbv zeta in Hm.
      apply obind_done in Hm. destruct Hm as (ys & Hy & Hm).
      apply obind_done in Hm. destruct Hm as (fs & Hfs & Hm).
      apply obind_done in Hm. destruct Hm as (onf & _ & Hm). inversion Hm; subst m3. exact D2.
    Qed.

    (** Contracting the cluster *)
    Record contracted (g' : wgraph) (edges' : list nat) : Prop := {
      ct_size : length (wg_elements g) <= length (wg_elements g') /\ nc <= length (wg_constraints g');
      ct_grown : forall v e, nth_error (wg_elements g) v = Some e ->
        exists e', nth_error (wg_elements g') v = Some e' /\ incl (we_constraints e) (we_constraints e') /\
          forall id, In id (we_constraints e') -> In id (we_constraints e) \/ nc <= id;
      ct_edges : NoDup edges' /\ forall c, In c edges' -> c < nc -> In c edges;
      ct_left : forall c, In c E0 -> ~ In c (so_constraints_handled so) ->
        In c edges' /\ nth_error (wg_constraints g') c = nth_error (wg_constraints g) c
    }.
    Lemma contract_edges_ok core v e e1 cs edges' cs' edges'' val' : In v sub ->
      nth_error (wg_elements g) v = Some e ->
      (forall id, In id e1 -> In id (we_constraints e) \/ nc <= id) ->
      ofold (contract_edge sub (so_frontier so) core) e1 (cs, edges', 0%Z) = Done (cs', edges'', val') ->
      NoDup edges' -> (forall c, In c edges' -> c < nc -> In c edges) ->
      (forall c, In c E0 -> ~ In c (so_constraints_handled so) ->
         In c edges' /\ nth_error cs c = nth_error (wg_constraints g) c) ->
      length cs' = length cs /\ NoDup edges'' /\ (forall c, In c edges'' -> c < nc -> In c edges) /\
      (forall c, In c E0 -> ~ In c (so_constraints_handled so) ->
         In c edges'' /\ nth_error cs' c = nth_error (wg_constraints g) c).
    Proof.
      intros Hv He Hold H N1 N2 N3.
      pose proof (ofold_inv (fun x : list wconstraint * list nat * Z =>
        length (fst (fst x)) = length cs /\ NoDup (snd (fst x)) /\ (forall c, In c (snd (fst x)) -> c < nc -> In c edges) /\
        (forall c, In c E0 -> ~ In c (so_constraints_handled so) ->
         In c (snd (fst x)) /\ nth_error (fst (fst x)) c = nth_error (wg_constraints g) c))
        (contract_edge sub (so_frontier so) core) e1) as Q.
      apply Q in H; [exact H| |cbn [fst snd]; auto]. clear Q H N1 N2 N3 edges' edges'' val' cs'.
      intros [[cs1 ed1] v1] id s' Hid (P1 & P2 & P3 & P4) H. cbn [fst snd] in *. unfold contract_edge in H.
      destruct (mem id ed1) eqn:Em; [|inversion H; subst s'; cbn [fst snd]; auto].
      rewrite mem_In in Em.
      apply obind_done in H. destruct H as (w & Hw & H). apply oget_done in Hw.
      destruct (forallb _ (wc_elements w)) eqn:Ef in H; [|inversion H; subst s'; cbn [fst snd]; auto].
      apply forallb_mem in Ef. cbv zeta in H.
      assert (Gone : forall c, In c E0 -> ~ In c (so_constraints_handled so) -> c <> id).
      { intros c Hc Hh ->. apply Hh. destruct (Hold id Hid) as [Ho|Ho]; [|apply E0_range in Hc; lia].
        apply (SO_all v e id Hv He Ho); [now apply E0_range|]. split; [apply P3; [auto|now apply E0_range]|].
        exists w. split; [|auto]. rewrite <- (proj2 (P4 id Hc Hh)). exact Hw. }
      destruct (length _ =? 2) in H.
      - inversion H; subst s'. cbn [fst snd]. split; [auto|]. split; [now apply set_remove_NoDup|]. split.
        + intros c Hc. apply set_remove_In in Hc. now apply P3.
        + intros c Hc Hh. destruct (P4 c Hc Hh). split; [|auto]. apply set_remove_In. auto.
      - apply obind_done in H. destruct H as (cs2 & Hs & H). apply oset_done in Hs. destruct Hs as [_ ->].
        inversion H; subst s'. cbn [fst snd]. rewrite lset_length. split; [auto|]. split; [auto|]. split; [auto|].
        intros c Hc Hh. destruct (P4 c Hc Hh). split; [auto|]. rewrite nth_error_lset_ne by (apply not_eq_sym; auto). auto.
    Qed.
    Lemma contract_vertex_ok core g1 edges1 td tv v g2 edges2 td2 tv2 : In v sub ->
      (exists e, nth_error (wg_elements g) v = Some e) -> contracted g1 edges1 ->
      contract_vertex sub (so_frontier so) core (g1, edges1, td, tv) v = Done (g2, edges2, td2, tv2) ->
      contracted g2 edges2.
    Proof.
      intros Hv (e & He) K H. unfold contract_vertex in H.
      apply obind_done in H. destruct H as (e1 & He1 & H). apply oget_done in He1.
      apply obind_done in H. destruct H as ([[cs ed] val] & Hf & H). cbv zeta in H.
      destruct (ct_grown _ _ K v e He) as (e' & H1 & _ & H3). rewrite He1 in H1. inversion H1; subst e'.
      destruct (contract_edges_ok core v e _ _ _ _ _ _ Hv He H3 Hf) as (L & N1 & N2 & N3); [apply K|apply K|apply K|].
      destruct (ct_size _ _ K) as [S1 S2].
      destruct (0 <? val)%Z.
      2:{ inversion H; subst. constructor; cbn [wg_elements wg_constraints]; auto; [rewrite L; auto|apply K]. }
      apply obind_done in H. destruct H as (g3 & Hg & H). inversion H; subst. clear H.
      apply wg_add_constraint_done in Hg. cbn [wg_elements wg_constraints] in Hg. destruct Hg as (A1 & A2 & A3).
      constructor.
      - rewrite A1, A2, app_length, L. simpl. lia.
      - intros u x Hx. destruct (ct_grown _ _ K u x Hx) as (x' & Q1 & Q2 & Q3).
        destruct (A3 u x' Q1) as (x2 & R1 & R2 & R3). exists x2. split; [auto|]. split; [intros y Hy; auto|].
        intros id Hid. destruct (R3 id Hid) as [Hin| ->]; [auto|right; lia].
      - split; [now apply set_add_NoDup|]. intros c Hc Hl. apply set_add_In in Hc. destruct Hc as [->|Hc]; [lia|auto].
      - intros c Hc Hh. destruct (N3 c Hc Hh) as [Q1 Q2]. split; [apply set_add_In; auto|].
        rewrite A2, nth_error_app1; [auto|]. rewrite L. apply E0_range in Hc. lia.
    Qed.
  End Cluster.

  Lemma one_cluster_covering d key sub st st' : covering st -> incl sub (dc_vertices st) ->
    one_cluster order d nc ne key sub st = Done st' -> covering st'.
  Proof.
    intros C Hs H. unfold one_cluster in H. cbv zeta in H.
    apply obind_done in H. destruct H as (so & Hso & H).
    apply sort_vertices in Hso; [|apply C].
    assert (Hx : forall v, In v sub -> exists e, nth_error (wg_elements (dc_graph st)) v = Some e).
    { intros v Hv. apply (sd_known _ _ _ _ _ _ _ _ Hso). now rewrite (order_In order order_perm). }
    apply obind_done in H. destruct H as (m & Hm & H).
    assert (D : dropped st so (mg_edges m)).
    { eapply core_vertices_ok in Hm; [exact Hm|exact C|exact Hso|]. cbn [mg_edges]. split; [apply C|].
      split; [intros x Hx'; auto|]. intros c Hc Hh. apply (left_was sub st so C Hso c Hc Hh). }
    assert (New := new_constraint sub st so C Hso).
    match type of H with (if _ then Done ?x else _) = _ => set (st1 := x) in * end.
    assert (Q : dc_constraints_handled st1 = flat_map st_constraints (dc_steps st1) /\ Forall covers (dc_steps st1)).
    { cbn [st1 dc_constraints_handled dc_steps]. rewrite (sd_handled _ _ _ _ _ _ _ _ Hso).
      assert (K : Forall covers (dc_steps st ++ [Step (so_constraints so) (so_real so) (so_fixes so)
              (dc_on_frontiers st) (dc_owned st) (dc_frontier st)])).
      { apply Forall_app. split; [apply C|]. constructor; [|constructor]. intros c us Hc. now apply New. }
      rewrite (cv_handled _ C). destruct (so_constraints so) as [|c0 cs0].
      - rewrite app_nil_r. split; [auto|apply C].
      - split; [|exact K]. rewrite flat_map_app. simpl. now rewrite app_nil_r. }
    destruct Q as [Q1 Q2].
    assert (Q3 : incl (so_constraints_handled so) E0).
    { rewrite (sd_handled _ _ _ _ _ _ _ _ Hso). apply incl_app; [apply C|]. intros c Hc. now apply New. }
    assert (Q4 : forall vs, (forall v, In v (dc_vertices st) -> ~ In v (so_core so) -> v < ne -> In v vs) ->
      forall g' ed, contracted st so g' ed ->
      forall c, In c E0 -> ~ In c (so_constraints_handled so) -> untouched g' ed vs c).
    { intros vs Hvs g' ed K c Hc Hh.
      destruct (left_was sub st so C Hso c Hc Hh) as (_ & w & Hw & Hf & Hi & Hk).
      destruct (ct_left _ _ _ _ K c Hc Hh) as [K1 K2].
      split; [auto|]. exists w. rewrite K2. split; [auto|]. split; [auto|]. split.
      - intros u Hu. apply Hvs; [auto|eapply (left_core sub st so C Hso); eauto|].
        now apply (first_range c (wc_elements w)).
      - intros u Hu. destruct (Hk u Hu) as (e & He & Hce).
        destruct (ct_grown _ _ _ _ K u e He) as (e' & G1 & G2 & _). exists e'. auto. }
    assert (K0 : contracted st so (dc_graph st) (mg_edges m)).
    { destruct D as (D1 & D2 & D3). constructor.
      - split; [auto|apply C].
      - intros v e He. exists e. split; [auto|]. split; [intros x; auto|auto].
      - split; [auto|]. intros c Hc _. now apply D2.
      - intros c Hc Hh. auto. }
    assert (C1 : covering st1).
    { constructor; cbn [st1 dc_graph dc_constraints_handled dc_steps dc_edges dc_vertices]; auto.
      - apply C.
      - apply Hso.
      - split; [apply K0|]. intros c Hc Hl. apply (cv_edges _ C); [|auto]. now apply K0. }
    destruct (_ <=? 1); [inversion H; subst st'; auto|].
    unfold contract in H. cbv zeta in H.
    apply obind_done in H. destruct H as ([[[g ed] td] tv] & Hg & H).
    assert (K : contracted st so g ed).
    { pose proof (ofold_inv (fun x : wgraph * list nat * Z * Z =>
          contracted st so (fst (fst (fst x))) (snd (fst (fst x))))
          (contract_vertex sub (so_frontier so) (length (wg_elements (dc_graph st1)))) (order (so_frontier so))) as Q.
      apply (Q) in Hg; [exact Hg| |].
      - intros [[[a1 a2] a3] a4] v [[[b1 b2] b3] b4] Hv Ha Hb. cbn [fst snd] in *.
        rewrite (order_In order order_perm) in Hv. apply (sd_frontier _ _ _ _ _ _ _ _ Hso) in Hv.
        rewrite (order_In order order_perm) in Hv. eapply contract_vertex_ok; eauto.
      - cbn [fst snd st1 dc_graph dc_edges]. destruct K0 as [S1 S2 S3 S4]. constructor; auto.
        + cbn [wg_add_element wg_elements wg_constraints]. rewrite app_length. lia.
        + intros v e He. destruct (S2 v e He) as (e' & T1 & T2). exists e'. split; [|auto].
          cbn [wg_add_element wg_elements]. now apply nth_error_app_old. }
    apply obind_done in H. destruct H as ([g1 vs] & Hv & H). inversion H; subst st'. clear H.
    assert (Kv : contracted st so g1 ed /\
      forall v, In v (dc_vertices st) -> ~ In v (so_core so) -> v < ne -> In v vs).
    { assert (V : forall v, In v (dc_vertices st) -> ~ In v (so_core so) ->
          In v (set_add (length (wg_elements (dc_graph st1)))
            (fold_left (fun vs v => set_remove v vs) (so_core so) (dc_vertices st1)))).
      { intros v V1 V2. apply set_add_In. right. apply removes_In. auto. }
      destruct (0 <? tv)%Z.
      - apply obind_done in Hv. destruct Hv as (x & Hx' & Hv). apply oget_done in Hx'.
        apply obind_done in Hv. destruct Hv as (es & He & Hv).
        apply oset_done in He. destruct He as [_ ->]. inversion Hv; subst. split; [|auto].
        destruct K as [S1 S2 S3 S4]. constructor; cbn [wg_elements wg_constraints]; auto.
        + rewrite lset_length. auto.
        + intros v e He. destruct (S2 v e He) as (e' & T1 & T2 & T3).
          destruct (Nat.eq_dec (length (wg_elements (dc_graph st1))) v) as [<-|Hne].
          * eexists. split; [apply nth_error_lset_eq; now apply nth_error_lt in Hx'|]. simpl.
            rewrite Hx' in T1. inversion T1; subst. auto.
          * exists e'. rewrite nth_error_lset_ne by auto. auto.
      - inversion Hv; subst. split; [auto|]. intros v V1 V2 V3. apply set_remove_In. split; [|auto].
        intros ->. cbn [st1 dc_graph] in V3. pose proof (proj1 (cv_size _ C)). lia. }
    destruct Kv as [Kg Kv].
    constructor; cbn [dc_graph dc_constraints_handled dc_steps dc_edges dc_vertices]; try apply C1.
    - destruct (ct_size _ _ _ _ Kg) as [S1 S2]. split; [|auto]. pose proof (proj1 (cv_size _ C)). lia.
    - apply Q4; auto.
    - split; [apply Kg|]. intros c Hc Hl. apply (cv_edges _ C); [|auto]. now apply Kg.
  Qed.

  Lemma decompose_loop_covering fuel search d : forall key st plan, covering st ->
    decompose_loop order fuel search d nc ne key st = Done plan -> plan_for G E0 plan.
  Proof.
    induction fuel as [|fuel IH]; intros key st plan C H; cbn [decompose_loop] in H; [discriminate|].
    apply obind_done in H. destruct H as ([sub|] & Hsub & H).
    { apply (dense_bfs_among order order_perm) in Hsub. destruct Hsub as [_ Hsub].
      apply obind_done in H. destruct H as (st' & Hst & H).
      pose proof (one_cluster_covering _ _ _ _ _ C Hsub Hst). eauto. }
    inversion H; subst plan. clear H Hsub.
    set (rest := filter (fun e => (e <? nc) && negb (mem e (dc_constraints_handled st))) (order (dc_edges st))).
    assert (R : forall c, In c rest <-> In c E0 /\ ~ In c (dc_constraints_handled st)).
    { intros c. unfold rest. rewrite filter_In, (order_In order order_perm), andb_true_iff, negb_true_iff, mem_not_In, Nat.ltb_lt.
      split; intros (H1 & H2).
      - destruct H2. split; [now apply (cv_edges _ C)|auto].
      - split; [now apply (cv_left _ C)|]. split; [now apply E0_range|auto]. }
    assert (N : NoDup rest).
    { apply NoDup_filter. eapply Permutation_NoDup; [apply Permutation_sym, order_perm|apply C]. }
    assert (P : Permutation (dc_constraints_handled st ++ rest) E0).
    { apply NoDup_Permutation.
      - assert (Dj : forall c, In c rest -> ~ In c (dc_constraints_handled st)) by (intros c Hc; now apply R).
        pose proof (cv_once _ C) as No. revert No Dj. generalize (dc_constraints_handled st) as h. clear -N.
        induction h as [|x h IH]; simpl; intros No Dj; [auto|]. inversion No; subst. constructor.
        + rewrite in_app_iff. intros [K|K]; [contradiction|]. apply (Dj x K). auto.
        + apply IH; [auto|]. intros c Hc K. apply (Dj c Hc). auto.
      - apply (cp_edges _ _ _ closed).
      - intros c. rewrite in_app_iff, R. split.
        + intros [Hc|[Hc _]]; [now apply (cv_ours _ C)|auto].
        + intros Hc. destruct (mem c (dc_constraints_handled st)) eqn:E; [rewrite mem_In in E|apply mem_not_In in E]; auto. }
    assert (L : flat_map st_constraints (last_step order nc ne st) = rest).
    { unfold last_step. fold rest. destruct rest; simpl; [auto|now rewrite app_nil_r]. }
    constructor.
    - now rewrite flat_map_app, L, <- (cv_handled _ C).
    - intros s c gc Hs Hc Hg. apply in_app_iff in Hs. destruct Hs as [Hs|Hs].
      + pose proof (cv_steps _ C) as K. rewrite Forall_forall in K. apply (K s Hs c); [auto|]. exists gc. auto.
      + assert (Hr : In c rest). { rewrite <- L. apply in_flat_map. eauto. }
        apply R in Hr. destruct Hr as [H0 Hn].
        destruct (cv_left _ C c H0 Hn) as (_ & w & _ & (gc' & Hg' & E) & Hi & _).
        rewrite Hg in Hg'. inversion Hg'; subst gc'. rewrite E.
        unfold last_step in Hs. fold rest in Hs. destruct rest as [|r0 rs]; [destruct Hs|]. destruct Hs as [<-|[]].
        cbn [st_elements]. intros u Hu. apply filter_In. rewrite (order_In order order_perm). split; [auto|].
        apply Nat.ltb_lt. rewrite <- E in Hu. apply (first_range c (incident_elements gc)); [auto|exists gc; auto|auto].
  Qed.

  Theorem decompose_covers fuel search d plan :
    decompose order fuel search d G V0 E0 = Done plan -> plan_for G E0 plan.
  Proof.
    unfold decompose. apply decompose_loop_covering. constructor; simpl.
    - rewrite !map_length. auto.
    - auto.
    - constructor.
    - intros c [].
    - intros c Hc _. split; [auto|].
      destruct (nth_error_ex (g_constraints G) c) as [gc Hg]; [now apply E0_range|].
      exists (WConstraint (Z.of_nat (valency gc)) (incident_elements gc)).
      split; [unfold work_graph; cbn [wg_constraints]; now rewrite nth_error_map, Hg|]. cbn [wc_elements]. split; [exists gc; auto|].
      split; [now apply (cp_inside _ _ _ closed c)|]. intros v Hv.
      destruct (nth_error_ex (g_elements G) v) as [ge He].
      { apply (first_range c (incident_elements gc)); [auto|exists gc; auto|auto]. }
      exists (WElement (Z.of_nat (dof ge)) (incident_constraints ge)). split; [unfold work_graph; cbn [wg_elements]; now rewrite nth_error_map, He|].
      simpl. eapply (cp_known _ _ _ closed); eauto.
    - split; [apply (cp_edges _ _ _ closed)|auto].
    - constructor.
  Qed.
End Plan.
