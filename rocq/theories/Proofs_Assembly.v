(** The recursive-assembly plan: it stays inside the component, and covers every
    constraint of it once. *)
From Coq Require Import List Arith ZArith Bool Lia Permutation.
From Verif Require Import Num Outcome Lib ModelExpr ModelGraph ModelSystem ModelSolve ModelAssembly Spec_Assembly.
Import ListNotations.
Local Open Scope nat_scope.

(** ** Sets and maps *)
Lemma mem_In x l : mem x l = true <-> In x l.
Proof.
  unfold mem. rewrite existsb_exists. split.
  - intros (y & Hy & E). apply Nat.eqb_eq in E. now subst.
  - intros H. exists x. split; [auto|apply Nat.eqb_refl].
Qed.
Lemma mem_not_In x l : mem x l = false <-> ~ In x l.
Proof. rewrite <- mem_In. destruct (mem x l); split; congruence. Qed.
Lemma set_add_In x y l : In x (set_add y l) <-> x = y \/ In x l.
Proof.
  unfold set_add. destruct (mem y l) eqn:E.
  - rewrite mem_In in E. split; [auto|]. intros [->|H]; auto.
  - rewrite in_app_iff. simpl. intuition.
Qed.
Lemma NoDup_snoc {A} (x : A) l : NoDup l -> ~ In x l -> NoDup (l ++ [x]).
Proof.
  intros N H. apply Permutation_NoDup with (x :: l); [|now constructor].
  apply Permutation_cons_append.
Qed.
Lemma set_add_NoDup y l : NoDup l -> NoDup (set_add y l).
Proof.
  intros N. unfold set_add. destruct (mem y l) eqn:E; [auto|].
  apply NoDup_snoc; [auto|now apply mem_not_In].
Qed.
Lemma set_remove_In x y l : In x (set_remove y l) <-> x <> y /\ In x l.
Proof.
  unfold set_remove. rewrite filter_In, negb_true_iff, Nat.eqb_neq. intuition.
Qed.
Lemma set_remove_NoDup y l : NoDup l -> NoDup (set_remove y l).
Proof. intros. now apply NoDup_filter. Qed.
Lemma removes_In l x vs : In x (fold_left (fun vs v => set_remove v vs) l vs) <-> ~ In x l /\ In x vs.
Proof.
  revert vs. induction l as [|y l IH]; simpl; intros vs; [tauto|].
  rewrite IH, set_remove_In. intuition.
Qed.
Lemma forallb_mem l sub : forallb (fun u => mem u sub) l = true <-> incl l sub.
Proof.
  rewrite forallb_forall. split; intros H x Hx; apply mem_In; auto.
Qed.

Definition all_values {A} (P : A -> Prop) (m : fmap A) : Prop := forall k v, In (k, v) m -> P v.
Lemma all_lookup {A} (P : A -> Prop) m k v : all_values P m -> lookup k m = Some v -> P v.
Proof.
  intros H. unfold lookup. destruct (find _ m) as [[k' v']|] eqn:E; [|discriminate].
  intros [= ->]. apply find_some in E. now apply (H k' v).
Qed.
Lemma all_remove {A} (P : A -> Prop) m k : all_values P m -> all_values P (remove_key k m).
Proof. intros H k' v Hv. apply filter_In in Hv. now apply (H k' v). Qed.
Lemma all_put {A} (P : A -> Prop) m k v : all_values P m -> P v -> all_values P (put k v m).
Proof.
  intros H Hv. unfold put. destruct (lookup k m).
  - intros k' v' Hk. apply in_map_iff in Hk. destruct Hk as ([k'' v''] & E & Hk). simpl in E.
    destruct (k =? k''); inversion E; subst; [auto|]. now apply (H k' v').
  - intros k' v' Hk. apply in_app_iff in Hk. destruct Hk as [Hk|[E|[]]]; [now apply (H k' v')|].
    now inversion E; subst.
Qed.

Section Plan.
  Variable order : list nat -> list nat.
  Hypothesis order_perm : forall l, Permutation (order l) l.
  Lemma order_In x l : In x (order l) <-> In x l.
  Proof. split; apply Permutation_in; auto using Permutation_sym. Qed.

  (** ** The search stays among the vertices *)
  Definition among (vertices : list nat) (s : subgraph_state) : Prop :=
    NoDup (sg_vertices s) /\ incl (sg_vertices s) vertices /\ incl (sg_adjacent s) vertices.

  Lemma extend_adjacent_incl g edges from sub vertices adj adj' :
    extend_adjacent g edges from sub vertices adj = Done adj' -> incl adj vertices -> incl adj' vertices.
  Proof.
    unfold extend_adjacent. intros H Hi. apply obind_done in H. destruct H as (e & _ & H).
    revert H. apply (ofold_inv (fun a => incl a vertices)); [|auto].
    intros a id a' _ Ha H. destruct (mem id edges); [|now inversion H; subst].
    apply obind_done in H. destruct H as (c & _ & H). inversion H; subst. clear H.
    revert a Ha. induction (wc_elements c) as [|u us IH]; simpl; intros a Ha; [auto|].
    apply IH. destruct (mem u vertices) eqn:E; [|auto]. destruct (mem u sub); simpl; [auto|].
    intros x Hx. apply set_add_In in Hx. destruct Hx as [->|Hx]; [now apply mem_In|auto].
  Qed.

  Lemma bfs_expand_among d g blocked edges vertices s vs : forall queue r,
    among vertices s -> incl vs vertices -> Forall (among vertices) queue ->
    bfs_expand d g blocked edges vertices s vs queue = Done r ->
    match r with inl found => NoDup found /\ incl found vertices | inr q => Forall (among vertices) q end.
  Proof.
    induction vs as [|v vs IH]; intros queue r Hs Hv Hq H; cbn [bfs_expand] in H; [now inversion H; subst|].
    cbv zeta in H. apply obind_done in H. destruct H as (val & _ & H).
    apply obind_done in H. destruct H as (e & _ & H).
    destruct Hs as (S1 & S2 & S3).
    assert (N : NoDup (set_add v (sg_vertices s))) by now apply set_add_NoDup.
    assert (I : incl (set_add v (sg_vertices s)) vertices).
    { intros x Hx. apply set_add_In in Hx. destruct Hx as [->|Hx]; [apply Hv; simpl; auto|auto]. }
    destruct (_ && _)%bool in H; [now inversion H; subst|].
    apply obind_done in H. destruct H as (adj & Ha & H).
    apply IH in H; [auto|repeat split; auto| |].
    - intros x Hx. apply Hv. simpl. auto.
    - apply Forall_app. split; [auto|]. constructor; [|constructor]. repeat split; [auto|auto|].
      simpl. eapply extend_adjacent_incl; [exact Ha|]. intros x Hx. apply set_remove_In in Hx. now apply S3.
  Qed.
  Lemma bfs_loop_among fuel d g blocked edges vertices : forall queue r,
    Forall (among vertices) queue ->
    bfs_loop order fuel d g blocked edges vertices queue = Done (Some r) ->
    NoDup r /\ incl r vertices.
  Proof.
    induction fuel as [|fuel IH]; intros queue r Hq H; destruct queue as [|s queue]; cbn [bfs_loop] in H;
      try discriminate.
    apply obind_done in H. destruct H as (x & Hx & H).
    pose proof (Forall_inv Hq) as Hs. apply Forall_inv_tail in Hq.
    eapply bfs_expand_among in Hx; [|exact Hs| |exact Hq].
    - destruct x as [found|q]; [inversion H; subst; exact Hx|]. eapply IH; eauto.
    - intros y Hy. rewrite order_In in Hy. destruct Hs as (_ & _ & Hs). auto.
  Qed.
  Lemma dense_bfs_among fuel d g blocked edges vertices r :
    dense_bfs order fuel d g blocked edges vertices = Done (Some r) ->
    NoDup r /\ incl r vertices.
  Proof.
    unfold dense_bfs. intros H. apply obind_done in H. destruct H as (queue & Hq & H).
    eapply bfs_loop_among; [|exact H]. apply Forall_forall. intros s Hs.
    eapply omap_in in Hq; [|exact Hs]. destruct Hq as (v & Hv & E).
    apply obind_done in E. destruct E as (adj & Ha & E).
    apply obind_done in E. destruct E as (e & _ & E). inversion E; subst. simpl.
    rewrite order_In in Hv. repeat split; simpl.
    - constructor; [auto|constructor].
    - intros x [<-|[]]. auto.
    - eapply extend_adjacent_incl; [exact Ha|]. intros x [].
  Qed.

  (** ** Sorting out a cluster *)
  Section Sorting.
    Variables (g : wgraph) (nc ne key : nat) (edges sub : list nat).
    Variables (vh0 ch0 : list nat) (ow0 : fmap nat).
    (** The constraint [id] is available and all its elements are in the cluster *)
    Definition enclosed (id : nat) : Prop :=
      In id edges /\ exists c, nth_error (wg_constraints g) id = Some c /\ incl (wc_elements c) sub.

    Lemma sort_edge_inv ids0 st st' :
      ofold (sort_edge g nc edges sub) ids0 st = Done st' ->
      snd (fst st) = ch0 ++ fst (fst st) -> NoDup (snd (fst st)) ->
      (forall id, In id (fst (fst st)) -> id < nc /\ enclosed id) -> snd st = false ->
      snd (fst st') = ch0 ++ fst (fst st') /\ NoDup (snd (fst st')) /\
      (forall id, In id (fst (fst st')) -> id < nc /\ enclosed id) /\
      incl (snd (fst st)) (snd (fst st')) /\
      (forall id, In id ids0 -> id < nc -> enclosed id -> In id (snd (fst st'))) /\
      (snd st' = false -> forall id, In id ids0 -> In id edges -> enclosed id).
    Proof.
      intros H E0 N0 C0 F0.
      pose proof (ofold_inv_prefix (fun pre (st' : list nat * list nat * bool) =>
        snd (fst st') = ch0 ++ fst (fst st') /\ NoDup (snd (fst st')) /\
        (forall id, In id (fst (fst st')) -> id < nc /\ enclosed id) /\
        incl (snd (fst st)) (snd (fst st')) /\
        (forall id, In id pre -> id < nc -> enclosed id -> In id (snd (fst st'))) /\
        (snd st' = false -> forall id, In id pre -> In id edges -> enclosed id))
        (sort_edge g nc edges sub) ids0) as Q.
      apply (fun K => Q K st st') in H; [exact H| |].
      - clear Q H. intros pre id post [[cs hd] fr] s' _ (P1 & P2 & P3 & P4 & P5 & P6) H. unfold sort_edge in H. cbn [fst snd] in *.
        destruct (mem id edges) eqn:Em.
        2:{ inversion H; subst s'. cbn [fst snd]. apply mem_not_In in Em.
            split; [auto|]. split; [auto|]. split; [auto|]. split; [auto|]. split.
            - intros x Hx Hl He. apply in_app_iff in Hx. destruct Hx as [Hx|[<-|[]]]; [auto|]. destruct He; contradiction.
            - intros x Hx Hl. apply in_app_iff in Hl. destruct Hl as [Hl|[<-|[]]]; [|contradiction]. now apply P6. }
        rewrite mem_In in Em. apply obind_done in H. destruct H as (c & Hc & H). apply oget_done in Hc.
        destruct (forallb _ _) eqn:Ef in H.
        + assert (EN : enclosed id). { split; [auto|]. exists c. split; [auto|]. now apply forallb_mem. }
          assert (P6' : fr = false -> forall x, In x (pre ++ [id]) -> In x edges -> enclosed x).
          { intros Hf x Hx Hl. apply in_app_iff in Hx. destruct Hx as [Hx|[<-|[]]]; [|auto]. now apply P6. }
          destruct (id <? nc) eqn:El; simpl in H.
          * apply Nat.ltb_lt in El. destruct (mem id hd) eqn:Eh; simpl in H; inversion H; subst s'; cbn [fst snd].
            -- rewrite mem_In in Eh. split; [auto|]. split; [auto|]. split; [auto|]. split; [auto|]. split; [|auto].
               intros x Hx Hl He. apply in_app_iff in Hx. destruct Hx as [Hx|[<-|[]]]; auto.
            -- assert (Ea : set_add id hd = hd ++ [id]) by (unfold set_add; now rewrite Eh).
               apply mem_not_In in Eh. rewrite Ea.
               split; [rewrite P1; now rewrite app_assoc|]. split; [now apply NoDup_snoc|]. split.
               { intros x Hx. apply in_app_iff in Hx. destruct Hx as [Hx|[<-|[]]]; auto. }
               split; [intros x Hx; apply in_app_iff; auto|]. split; [|auto].
               intros x Hx Hl He. apply in_app_iff. apply in_app_iff in Hx. destruct Hx as [Hx|[<-|[]]]; simpl; auto.
          * apply Nat.ltb_ge in El. inversion H; subst s'; cbn [fst snd].
            split; [auto|]. split; [auto|]. split; [auto|]. split; [auto|]. split; [|auto].
            intros x Hx Hl He. apply in_app_iff in Hx. destruct Hx as [Hx|[<-|[]]]; [auto|lia].
        + inversion H; subst s'; cbn [fst snd].
          split; [auto|]. split; [auto|]. split; [auto|]. split; [auto|]. split; [|discriminate].
          intros x Hx Hl He. apply in_app_iff in Hx. destruct Hx as [Hx|[<-|[]]]; [auto|].
          exfalso. destruct He as (_ & c' & Hc' & He). rewrite Hc in Hc'. inversion Hc'; subst c'.
          apply forallb_mem in He. congruence.
      - split; [auto|]. split; [auto|]. split; [auto|]. split; [intros x Hx; auto|].
        split; [intros x []|intros _ x []].
    Qed.

    Record sorted_out (pre : list nat) (st : sorting_out) : Prop := {
      sd_handled : so_constraints_handled st = ch0 ++ so_constraints st;
      sd_once : NoDup (so_constraints_handled st);
      sd_enclosed : forall id, In id (so_constraints st) -> id < nc /\ enclosed id;
      sd_all : forall v e id, In v pre -> nth_error (wg_elements g) v = Some e -> In id (we_constraints e) ->
        id < nc -> enclosed id -> In id (so_constraints_handled st);
      sd_core : forall v, In v (so_core st) -> In v pre /\ exists e, nth_error (wg_elements g) v = Some e /\
        forall id, In id (we_constraints e) -> In id edges -> enclosed id;
      sd_known : forall v, In v pre -> exists e, nth_error (wg_elements g) v = Some e;
      sd_frontier : incl (so_frontier st) pre;
      sd_real : so_real st = filter (fun v => v <? ne) pre;
      sd_fixes : incl (so_fixes st) (so_real st)
    }.
    Lemma sort_vertices vs st : NoDup ch0 ->
      ofold (sort_vertex g nc ne key edges sub) vs (SortingOut [] [] [] [] [] vh0 ch0 ow0) = Done st ->
      sorted_out vs st.
    Proof.
      intros N0 H. revert H. apply (ofold_inv_prefix sorted_out).
      - intros pre v post s s' _ I H. unfold sort_vertex in H.
        apply obind_done in H. destruct H as (e & He & H). apply oget_done in He. cbv zeta in H.
        apply obind_done in H. destruct H as ([[cs hd] fr] & Hf & H).
        apply sort_edge_inv in Hf; cbn [fst snd] in *; [|apply I|apply I|apply I|auto].
        destruct Hf as (F1 & F2 & F3 & F4 & F5 & F6). inversion H; subst s'. clear H.
        constructor; cbn [so_constraints_handled so_constraints so_core so_frontier so_real so_fixes]; auto.
        + intros u e' id Hu He' Hid Hl Hen. apply in_app_iff in Hu. destruct Hu as [Hu|[<-|[]]].
          * apply F4. eapply (sd_all _ _ I); eauto.
          * rewrite He in He'. inversion He'; subst e'. auto.
        + assert (K : forall u, In u (so_core s) -> In u (pre ++ [v]) /\ exists e, nth_error (wg_elements g) u = Some e /\
            forall id, In id (we_constraints e) -> In id edges -> enclosed id).
          { intros u Hu. destruct (sd_core _ _ I u Hu) as (K1 & K2). split; [apply in_app_iff; auto|auto]. }
          intros u Hu. destruct fr; [auto|]. apply in_app_iff in Hu. destruct Hu as [Hu|[<-|[]]]; [auto|].
          split; [apply in_app_iff; simpl; auto|]. eauto.
        + intros u Hu. apply in_app_iff in Hu. destruct Hu as [Hu|[<-|[]]]; [now apply (sd_known _ _ I)|eauto].
        + intros u Hu. assert (Hu' : In u (so_frontier s) \/ u = v).
          { destruct fr; [apply set_add_In in Hu; tauto|auto]. }
          apply in_app_iff. destruct Hu' as [Hu'| ->]; [left; now apply (sd_frontier _ _ I)|simpl; auto].
        + rewrite filter_app, (sd_real _ _ I). simpl. destruct (v <? ne); [auto|now rewrite app_nil_r].
        + intros u Hu. assert (K : In u (so_fixes s) -> In u (if v <? ne then so_real s ++ [v] else so_real s)).
          { intros K. apply (sd_fixes _ _ I) in K. destruct (v <? ne); [apply in_app_iff|]; auto. }
          destruct ((v <? ne) && _)%bool eqn:E in Hu; [|auto].
          apply in_app_iff in Hu. destruct Hu as [Hu|[<-|[]]]; [auto|].
          apply andb_prop in E. destruct E as [E _]. rewrite E. apply in_app_iff. simpl. auto.
      - constructor; simpl; auto.
        + now rewrite app_nil_r.
        + intros id [].
        + intros v e id [].
        + intros v [].
        + intros v [].
        + intros v [].
        + intros v [].
    Qed.
  End Sorting.

  (** ** Inside the component *)
  Section Inside.
    Variables (V0 : list nat) (nc ne : nat).
    Definition step_inside (st : plan_step) : Prop :=
      incl (st_elements st) V0 /\
      all_values (fun l => incl l V0) (st_owned st) /\ all_values (fun l => incl l V0) (st_frontier st).
    Record inside_plan (st : clusters_state) : Prop := {
      ip_size : ne <= length (wg_elements (dc_graph st));
      ip_vertices : forall v, In v (dc_vertices st) -> v < ne -> In v V0;
      ip_owned : all_values (fun l => incl l V0) (dc_owned st);
      ip_frontier : all_values (fun l => incl l V0) (dc_frontier st);
      ip_steps : Forall step_inside (dc_steps st)
    }.

    Lemma core_vertex_inside g key core m v m' :
      all_values (fun l => incl l V0) (mg_owned m) -> all_values (fun l => incl l V0) (mg_frontier m) ->
      core_vertex g ne key core m v = Done m' ->
      all_values (fun l => incl l V0) (mg_owned m') /\ all_values (fun l => incl l V0) (mg_frontier m').
    Proof.
      intros H1 H2 H. unfold core_vertex in H.
      apply obind_done in H. destruct H as (ed & _ & H).
      apply obind_done in H. destruct H as (old & _ & H). cbv zeta in H.
      apply obind_done in H. destruct H as (m1 & Hm & H). inversion H; subst m'. cbn [mg_owned mg_frontier]. clear H.
      destruct (old =? key); [inversion Hm; subst m1; auto|].
      unfold merge_cluster in Hm. cbn [mg_edges mg_owning mg_owned mg_frontier mg_on_frontiers] in Hm.
      apply obind_done in Hm. destruct Hm as (xs & Hx & Hm). apply ounwrap_done in Hx. cbv zeta in Hm.
      apply obind_done in Hm. destruct Hm as (ys & Hy & Hm). apply ounwrap_done in Hy.
      apply obind_done in Hm. destruct Hm as (fs & Hfs & Hm).
      apply obind_done in Hm. destruct Hm as (onf & _ & Hm). inversion Hm; subst m1. cbn [mg_owned mg_frontier].
      split; [|now apply all_remove].
      apply all_put; [now apply all_remove|].
      apply incl_app.
      - eapply (all_lookup (fun l => incl l V0) (remove_key old (mg_owned m))); [|exact Hy]. now apply all_remove.
      - eapply (all_lookup (fun l => incl l V0) (mg_owned m)); [exact H1|exact Hx].
    Qed.

    Lemma wg_add_constraint_done val els g g' : wg_add_constraint val els g = Done g' ->
      length (wg_elements g') = length (wg_elements g) /\
      wg_constraints g' = wg_constraints g ++ [WConstraint val els] /\
      forall v x, nth_error (wg_elements g) v = Some x -> exists x', nth_error (wg_elements g') v = Some x' /\
        incl (we_constraints x) (we_constraints x') /\
        forall id, In id (we_constraints x') -> In id (we_constraints x) \/ id = length (wg_constraints g).
    Proof.
      unfold wg_add_constraint. cbv zeta. intros H. apply obind_done in H. destruct H as (es & He & H).
      inversion H; subst g'. cbn [wg_elements wg_constraints]. clear H.
      cut (length es = length (wg_elements g) /\
        forall v x, nth_error (wg_elements g) v = Some x -> exists x', nth_error es v = Some x' /\
        incl (we_constraints x) (we_constraints x') /\
        forall id, In id (we_constraints x') -> In id (we_constraints x) \/ id = length (wg_constraints g)).
      { intros [K1 K2]. auto. }
      revert He. apply (ofold_inv (fun es => length es = length (wg_elements g) /\
        forall v x, nth_error (wg_elements g) v = Some x -> exists x', nth_error es v = Some x' /\
        incl (we_constraints x) (we_constraints x') /\
        forall id, In id (we_constraints x') -> In id (we_constraints x) \/ id = length (wg_constraints g))).
      - intros l u l' _ [L I] Hu. apply obind_done in Hu. destruct Hu as (y & Hy & Hu). apply oget_done in Hy.
        apply oset_done in Hu. destruct Hu as [Hl ->]. rewrite lset_length. split; [auto|].
        intros v x Hx. destruct (I v x Hx) as (x' & H1 & H2 & H3).
        destruct (Nat.eq_dec u v) as [->|Hne].
        + rewrite H1 in Hy. inversion Hy; subst y. eexists. split; [now apply nth_error_lset_eq|]. simpl. split.
          * intros id Hid. apply in_app_iff. auto.
          * intros id Hid. apply in_app_iff in Hid. destruct Hid as [Hid|[<-|[]]]; auto.
        + exists x'. rewrite nth_error_lset_ne by auto. auto.
      - split; [auto|]. intros v x Hx. exists x. split; [auto|]. split; [intros y; auto|auto].
    Qed.

    Lemma contract_vertex_size sub frontier core g edges td tv v g' edges' td' tv' :
      contract_vertex sub frontier core (g, edges, td, tv) v = Done (g', edges', td', tv') ->
      length (wg_elements g') = length (wg_elements g).
    Proof.
      unfold contract_vertex. intros H. apply obind_done in H. destruct H as (e & _ & H).
      apply obind_done in H. destruct H as ([[cs ed] val] & _ & H). cbv zeta in H.
      destruct (0 <? val)%Z; [|now inversion H; subst].
      apply obind_done in H. destruct H as (g1 & Hg & H). apply wg_add_constraint_done in Hg.
      inversion H; subst. now rewrite (proj1 Hg).
    Qed.

    Lemma contract_inside d key sub core frontier st st' : inside_plan st ->
      contract order d key sub core frontier st = Done st' -> inside_plan st'.
    Proof.
      intros I H. unfold contract in H. cbv zeta in H.
      apply obind_done in H. destruct H as ([[[g ed] td] tv] & Hg & H).
      assert (L : length (wg_elements g) = S (length (wg_elements (dc_graph st)))).
      { pose proof (ofold_inv (fun x : wgraph * list nat * Z * Z =>
          length (wg_elements (fst (fst (fst x)))) = S (length (wg_elements (dc_graph st))))
          (contract_vertex sub frontier (length (wg_elements (dc_graph st)))) (order frontier)) as Q.
        apply (Q) in Hg; [exact Hg| |].
        - intros [[[a1 a2] a3] a4] v [[[b1 b2] b3] b4] _ Ha Hb. cbn [fst] in *. rewrite <- Ha.
          eapply contract_vertex_size; eauto.
        - cbn [fst wg_elements wg_add_element]. rewrite app_length. simpl. lia. }
      apply obind_done in H. destruct H as ([g1 vs] & Hv & H). inversion H; subst st'. clear H.
      pose proof (ip_size _ I) as Sz.
      assert (K : length (wg_elements g1) = length (wg_elements g) /\
        forall v, In v vs -> v < ne -> In v V0).
      { assert (K0 : forall v, In v (set_add (length (wg_elements (dc_graph st)))
            (fold_left (fun vs v => set_remove v vs) core (dc_vertices st))) -> v < ne -> In v V0).
        { intros v Hin Hl. apply set_add_In in Hin. destruct Hin as [->|Hin]; [lia|].
          apply removes_In in Hin. now apply (ip_vertices _ I). }
        destruct (0 <? tv)%Z.
        - apply obind_done in Hv. destruct Hv as (x & _ & Hv). apply obind_done in Hv. destruct Hv as (es & He & Hv).
          apply oset_done in He. destruct He as [_ ->]. inversion Hv; subst. simpl. rewrite lset_length. auto.
        - inversion Hv; subst. split; [auto|]. intros v Hin. apply set_remove_In in Hin. now apply K0. }
      constructor; cbn [dc_graph dc_vertices dc_owned dc_frontier dc_steps]; try apply I; [lia|tauto].
    Qed.

    Lemma pushes_inside key fs m : all_values (fun l => incl l V0) m ->
      (forall v, In v fs -> v < ne -> In v V0) ->
      all_values (fun l => incl l V0) (fold_left (fun f v => if v <? ne then push_at key v f else f) fs m).
    Proof.
      revert m. induction fs as [|v fs IH]; simpl; intros m Hm Hf; [auto|].
      apply IH; [|intros; apply Hf; auto]. destruct (v <? ne) eqn:E; [|auto]. apply Nat.ltb_lt in E.
      unfold push_at. apply all_put; [auto|]. apply incl_app.
      - destruct (lookup key m) eqn:El; [|intros x []]. now apply (all_lookup (fun l => incl l V0) _ _ _ Hm El).
      - intros x [<-|[]]. apply Hf; auto.
    Qed.

    Lemma one_cluster_inside d key sub st st' : inside_plan st -> incl sub (dc_vertices st) ->
      NoDup (dc_constraints_handled st) ->
      one_cluster order d nc ne key sub st = Done st' ->
      inside_plan st' /\ NoDup (dc_constraints_handled st').
    Proof.
      intros I Hs N H. unfold one_cluster in H. cbv zeta in H.
      apply obind_done in H. destruct H as (so & Hso & H).
      apply sort_vertices in Hso; [|auto].
      apply obind_done in H. destruct H as (m & Hm & H).
      assert (Hreal : incl (so_real so) V0).
      { rewrite (sd_real _ _ _ _ _ _ _ _ Hso). intros v Hv. apply filter_In in Hv. destruct Hv as [Hv Hl].
        apply Nat.ltb_lt in Hl. rewrite order_In in Hv. apply (ip_vertices _ I); auto. }
      assert (Hfix : incl (so_fixes so) V0).
      { intros v Hv. apply Hreal. now apply (sd_fixes _ _ _ _ _ _ _ _ Hso). }
      assert (Hfr : forall v, In v (order (so_frontier so)) -> v < ne -> In v V0).
      { intros v Hv Hl. rewrite order_In in Hv. apply (sd_frontier _ _ _ _ _ _ _ _ Hso) in Hv.
        rewrite order_In in Hv. apply (ip_vertices _ I); auto. }
      assert (M : all_values (fun l => incl l V0) (mg_owned m) /\ all_values (fun l => incl l V0) (mg_frontier m)).
      { revert Hm. apply (ofold_inv (fun m => all_values (fun l => incl l V0) (mg_owned m) /\
                                          all_values (fun l => incl l V0) (mg_frontier m))).
        - intros m0 v m1 _ [M1 M2] Hm. eapply core_vertex_inside; eauto.
        - simpl. split; [|apply I]. pose proof (ip_owned _ I) as Io.
          destruct (so_core so), (so_fixes so); auto using all_put. }
      match type of H with (if _ then Done ?x else _) = _ => set (st1 := x) in * end.
      assert (I1 : inside_plan st1).
      { constructor; cbn [st1 dc_graph dc_vertices dc_owned dc_frontier dc_steps].
        - apply I.
        - apply I.
        - apply M.
        - apply pushes_inside; [apply M|auto].
        - assert (Forall step_inside (dc_steps st ++ [Step (so_constraints so) (so_real so) (so_fixes so)
              (dc_on_frontiers st) (dc_owned st) (dc_frontier st)])).
          { apply Forall_app. split; [apply I|]. constructor; [|constructor]. split; [auto|]. split; apply I. }
          destruct (so_constraints so); [apply I|auto]. }
      assert (N1 : NoDup (dc_constraints_handled st1)) by apply Hso.
      destruct (_ <=? 1); [inversion H; subst st'; auto|].
      split; [eapply contract_inside; eauto|].
      unfold contract in H. cbv zeta in H.
      apply obind_done in H. destruct H as ([[[g ed] td] tv] & Hg & H).
      apply obind_done in H. destruct H as ([g1 vs] & Hv & H). inversion H; subst st'. exact N1.
    Qed.

    Lemma decompose_loop_inside fuel search d : forall key st plan, inside_plan st ->
      NoDup (dc_constraints_handled st) ->
      decompose_loop order fuel search d nc ne key st = Done plan -> Forall step_inside plan.
    Proof.
      induction fuel as [|fuel IH]; intros key st plan I N H; cbn [decompose_loop] in H; [discriminate|].
      apply obind_done in H. destruct H as ([sub|] & Hsub & H).
      - apply dense_bfs_among in Hsub. destruct Hsub as [_ Hsub].
        apply obind_done in H. destruct H as (st' & Hst & H).
        destruct (one_cluster_inside _ _ _ _ _ I Hsub N Hst) as [I' N']. eauto.
      - inversion H; subst plan. apply Forall_app. split; [apply I|].
        unfold last_step. destruct (filter _ (order (dc_edges st))); [constructor|].
        constructor; [|constructor]. split; [|split; apply I]. cbn [st_elements].
        intros v Hv. apply filter_In in Hv. destruct Hv as [Hv Hl]. rewrite order_In in Hv. apply Nat.ltb_lt in Hl.
        now apply (ip_vertices _ I).
    Qed.
  End Inside.

  Lemma decompose_inside fuel search d g vertices edges plan :
    decompose order fuel search d g vertices edges = Done plan -> Forall (step_inside vertices) plan.
  Proof.
    unfold decompose. apply decompose_loop_inside; [|constructor].
    constructor; simpl; auto.
    - now rewrite map_length.
    - intros k v [].
    - intros k v [].
  Qed.
End Plan.
