(** No step of a recursive-assembly plan has a constraint twice. *)
From Coq Require Import List Arith ZArith Bool Lia Permutation.
From Verif Require Import Num Outcome Lib ModelGraph ModelSystem ModelSolve ModelAssembly Proofs_Assembly.
Import ListNotations.
Local Open Scope nat_scope.

Section Steps.
  Variable (order : list nat -> list nat).
  Hypothesis order_perm : forall l, Permutation (order l) l.
  Variables (nc ne : nat).

  Definition clean (cs : list nat) : Prop := NoDup cs /\ forall c, In c cs -> c < nc.

  Lemma sort_edge_clean g edges sub st id st' : sort_edge g nc edges sub st id = Done st' ->
    clean (fst (fst st)) -> incl (fst (fst st)) (snd (fst st)) ->
    clean (fst (fst st')) /\ incl (fst (fst st')) (snd (fst st')).
  Proof.
    destruct st as [[cs handled] frontier]. unfold sort_edge. cbn [fst snd]. intros H [N R] I.
    destruct (mem id edges); [|inversion H; subst; cbn [fst snd]; repeat split; auto].
    apply obind_done in H. destruct H as (c & _ & H).
    destruct (forallb _ _); [|inversion H; subst; cbn [fst snd]; repeat split; auto].
    destruct (id <? nc) eqn:El; cbn [andb] in H; [|inversion H; subst; cbn [fst snd]; repeat split; auto].
    destruct (mem id handled) eqn:Em; cbn [negb] in H; inversion H; subst; cbn [fst snd]; [repeat split; auto|].
    apply mem_not_In in Em. apply Nat.ltb_lt in El. split; [split|].
    - apply NoDup_snoc; auto.
    - intros c0 Hc. apply in_app_iff in Hc. destruct Hc as [Hc|[<-|[]]]; auto.
    - intros c0 Hc. apply set_add_In. apply in_app_iff in Hc. destruct Hc as [Hc|[<-|[]]]; auto.
  Qed.
  Lemma sort_vertex_clean g key edges sub so v so' : sort_vertex g nc ne key edges sub so v = Done so' ->
    clean (so_constraints so) /\ incl (so_constraints so) (so_constraints_handled so) ->
    clean (so_constraints so') /\ incl (so_constraints so') (so_constraints_handled so').
  Proof.
    intros H I. unfold sort_vertex in H. apply obind_done in H. destruct H as (e & _ & H). cbv zeta in H.
    apply obind_done in H. destruct H as ([[cs handled] frontier] & Hf & H). inversion H; subst so'. clear H.
    cbn [so_constraints so_constraints_handled].
    apply (ofold_inv (fun st : list nat * list nat * bool => clean (fst (fst st)) /\ incl (fst (fst st)) (snd (fst st)))) in Hf.
    - exact Hf.
    - intros a id b _ [C1 C2] E. eapply sort_edge_clean; eauto.
    - exact I.
  Qed.

  Record tidy (st : clusters_state) : Prop := {
    td_edges : NoDup (dc_edges st);
    td_steps : Forall (fun p => clean (st_constraints p)) (dc_steps st)
  }.

  Lemma core_vertex_edges g key core m v m' : core_vertex g ne key core m v = Done m' ->
    NoDup (mg_edges m) -> NoDup (mg_edges m').
  Proof.
    intros H N. unfold core_vertex in H. apply obind_done in H. destruct H as (edges & He & H).
    assert (N1 : NoDup edges).
    { destruct (v <? ne); [|now inversion He; subst]. unfold drop_core_edges in He.
      apply obind_done in He. destruct He as (e & _ & He).
      apply (ofold_inv (fun l => NoDup l)) in He; [auto| |auto].
      intros a id b _ Na E. apply obind_done in E. destruct E as (c & _ & E). inversion E; subst.
      destruct (forallb _ _); [now apply set_remove_NoDup|auto]. }
    apply obind_done in H. destruct H as (old & _ & H). cbv zeta in H.
    apply obind_done in H. destruct H as (m1 & Hm & H). inversion H; subst m'. cbn [mg_edges].
    destruct (old =? key); [inversion Hm; subst; auto|]. unfold merge_cluster in Hm.
    apply obind_done in Hm. destruct Hm as (xs & _ & Hm). cbv zeta in Hm.
    apply obind_done in Hm. destruct Hm as (ys & _ & Hm). apply obind_done in Hm. destruct Hm as (fs & _ & Hm).
    apply obind_done in Hm. destruct Hm as (onf & _ & Hm). inversion Hm; subst. auto.
  Qed.

  Lemma contract_tidy d key sub core frontier st st' : contract order d key sub core frontier st = Done st' ->
    tidy st -> tidy st'.
  Proof.
    intros H [E S]. unfold contract in H. cbv zeta in H.
    apply obind_done in H. destruct H as ([[[g edges] td] tv] & Hf & H).
    assert (N : NoDup edges).
    { apply (ofold_inv (fun x : wgraph * list nat * Z * Z => NoDup (snd (fst (fst x))))) in Hf; [exact Hf| |exact E].
      clear Hf. intros [[[g0 e0] td0] tv0] v [[[g1 e1] td1] tv1] _ N0 H0. cbn [fst snd] in *. unfold contract_vertex in H0.
      apply obind_done in H0. destruct H0 as (e & _ & H0). apply obind_done in H0. destruct H0 as ([[cs e2] val] & Hc & H0).
      cbv zeta in H0.
      assert (N2 : NoDup e2).
      { apply (ofold_inv (fun x : list wconstraint * list nat * Z => NoDup (snd (fst x)))) in Hc; [exact Hc| |exact N0].
        clear Hc H0. intros [[c0 a0] v0] id [[c1 a1] v1] _ Na H1. cbn [fst snd] in *. unfold contract_edge in H1.
        destruct (mem id a0); [|now inversion H1; subst].
        apply obind_done in H1. destruct H1 as (c & _ & H1). destruct (forallb _ _); [|now inversion H1; subst].
        cbv zeta in H1. destruct (_ =? 2); [inversion H1; subst; now apply set_remove_NoDup|].
        apply obind_done in H1. destruct H1 as (cs2 & _ & H1). now inversion H1; subst. }
      destruct (0 <? val)%Z; [|inversion H0; subst; auto].
      apply obind_done in H0. destruct H0 as (g2 & _ & H0). inversion H0; subst. now apply set_add_NoDup. }
    apply obind_done in H. destruct H as ([g1 vs] & _ & H). inversion H; subst. split; simpl; auto.
  Qed.

  Lemma one_cluster_tidy d key sub st st' : one_cluster order d nc ne key sub st = Done st' -> tidy st -> tidy st'.
  Proof.
    intros H [E S]. unfold one_cluster in H. cbv zeta in H.
    apply obind_done in H. destruct H as (so & Hso & H).
    apply (ofold_inv (fun so => clean (so_constraints so) /\ incl (so_constraints so) (so_constraints_handled so))) in Hso.
    2:{ intros a v b _ I Hb. eapply sort_vertex_clean; eauto. }
    2:{ simpl. split; [split; [constructor|intros c []]|intros c []]. }
    apply obind_done in H. destruct H as (m & Hm & H).
    apply (ofold_inv (fun m => NoDup (mg_edges m))) in Hm; [|intros a v b _ N Hb; eapply core_vertex_edges; eauto|exact E].
    assert (T : forall a b c' d' e f g, tidy (ClustersState a b (mg_edges m) c' d' e f g
        (fold_left (fun f v => if v <? ne then push_at key v f else f) (order (so_frontier so)) (mg_frontier m))
        (if length sub - length (so_frontier so) <=? 1 then dc_blocked st ++ [sub] else dc_blocked st)
        (match so_constraints so with
         | [] => dc_steps st
         | cs => dc_steps st ++ [Step cs (so_real so) (so_fixes so) (dc_on_frontiers st) (dc_owned st) (dc_frontier st)]
         end))).
    { intros. split; simpl; [exact Hm|]. destruct (so_constraints so) as [|c0 cs0] eqn:Ec; [exact S|].
      apply Forall_app. split; [exact S|]. constructor; [|constructor]. simpl. apply Hso. }
    destruct (length sub - length (so_frontier so) <=? 1).
    - inversion H; subst. apply T.
    - eapply contract_tidy; [exact H|apply T].
  Qed.

  Lemma decompose_loop_tidy search d : forall fuel key st plan, tidy st ->
    decompose_loop order fuel search d nc ne key st = Done plan -> Forall (fun p => clean (st_constraints p)) plan.
  Proof.
    induction fuel as [|fuel IH]; intros key st plan T H; cbn [decompose_loop] in H; [discriminate|].
    apply obind_done in H. destruct H as ([sub|] & _ & H).
    - apply obind_done in H. destruct H as (st' & Hst & H). eapply IH; [eapply one_cluster_tidy; eauto|exact H].
    - inversion H; subst plan. apply Forall_app. split; [apply T|]. unfold last_step.
      destruct (filter _ (order (dc_edges st))) as [|c cs] eqn:Ef; [constructor|].
      constructor; [|constructor]. cbn [st_constraints]. rewrite <- Ef. split.
      + apply NoDup_filter. eapply Permutation_NoDup; [apply Permutation_sym, order_perm|apply T].
      + intros x Hx. apply filter_In in Hx. destruct Hx as [_ Hx]. apply andb_true_iff in Hx.
        now apply Nat.ltb_lt.
  Qed.
End Steps.

Theorem decompose_tidy order fuel search d g vertices edges plan : (forall l, Permutation (order l) l) -> NoDup edges ->
  decompose order fuel search d g vertices edges = Done plan ->
  Forall (fun p => clean (length (g_constraints g)) (st_constraints p)) plan.
Proof.
  intros O N. unfold decompose. apply decompose_loop_tidy; [exact O|]. split; simpl; [exact N|constructor].
Qed.
