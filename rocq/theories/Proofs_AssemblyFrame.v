(** Recursive assembly writes only coordinates of the component's elements. *)
From Coq Require Import List Arith ZArith Bool Lia Permutation.
From Verif Require Import Num Outcome Lib ModelExpr ModelGraph ModelSystem ModelSolve ModelOptimize ModelAssembly Spec_Assembly
  Spec_Solver Proofs_Solve Proofs_Assembly.
Import ListNotations.
Local Open Scope nat_scope.

Section Frame.
  Context {F : Type} {NF : Num F}.
  Variables (V0 : list nat) (els : list encoded_element).
  (** A coordinate of an element of the component *)
  Definition of_component (v : nat) : Prop :=
    exists id e, In id V0 /\ nth_error els id = Some e /\ In v (element_variables e).

  Lemma write_variable_frame scale (s s' : system F) idx x : of_component idx ->
    write_variable scale s idx x = Done s' -> rewritten of_component s s'.
  Proof.
    intros Hi H. unfold write_variable in H.
    apply obind_done in H. destruct H as (vt & Ht & H). apply obind_done in H. destruct H as (vs & Hv & H).
    inversion H; subst s'. apply oset_done in Ht. apply oset_done in Hv. destruct Ht as [_ ->], Hv as [_ ->].
    exists (lset (sys_variables s) idx (nmul scale x)), (lset (sys_variables_transformed s) idx x).
    split; [auto|]. split; [apply lset_length|]. split; [apply lset_length|].
    intros v Hv. apply nth_error_lset_ne. intros ->. contradiction.
  Qed.

  Lemma rewritten_elements W (s s' : system F) : rewritten W s s' -> sys_elements s' = sys_elements s.
  Proof. intros (vs & vt & -> & _). reflexivity. Qed.

  Lemma move_element_frame scale c p (s s' : system F) id : sys_elements s = els -> In id V0 ->
    move_element scale c p s id = Done s' -> rewritten of_component s s'.
  Proof.
    intros E Hi H. unfold move_element in H. destruct (mem id (cs_elements c)); [inversion H; subst; apply rewritten_refl|].
    apply obind_done in H. destruct H as (e & He & H). apply oget_done in He. rewrite E in He.
    destruct e as [idx|idx|a b|a b]; try (inversion H; subst; apply rewritten_refl).
    apply obind_done in H. destruct H as (x & _ & H). apply obind_done in H. destruct H as (y & _ & H).
    destruct (transform_point p (x, y)) as [x' y'].
    apply obind_done in H. destruct H as (s1 & H1 & H).
    eapply rewritten_trans; [eapply write_variable_frame; [|exact H1]|eapply write_variable_frame; [|exact H]].
    - exists id, (EPoint idx). simpl. auto.
    - exists id, (EPoint idx). simpl. rewrite Nat.add_1_r. auto.
  Qed.

  Lemma ofold_rewritten {A} (f : system F -> A -> outcome (system F)) l s s' :
    sys_elements s = els ->
    (forall s1 a s2, In a l -> sys_elements s1 = els -> f s1 a = Done s2 -> rewritten of_component s1 s2) ->
    ofold f l s = Done s' -> rewritten of_component s s'.
  Proof.
    intros E Hf. apply (ofold_inv (fun s1 => rewritten of_component s s1)).
    - intros s1 a s2 Ha H1 H2. eapply rewritten_trans; [exact H1|]. eapply Hf; eauto.
      now rewrite (rewritten_elements _ _ _ H1).
    - apply rewritten_refl.
  Qed.

  Lemma move_cluster_frame scale st c values (s s' : system F) ik : sys_elements s = els -> step_inside V0 st ->
    move_cluster scale st c values s ik = Done s' -> rewritten of_component s s'.
  Proof.
    intros E I H. destruct ik as [i [key pts]]. unfold move_cluster in H.
    apply obind_done in H. destruct H as (p & _ & H).
    eapply ofold_rewritten; [exact E| |exact H]. intros s1 id s2 Hid E1 H1.
    eapply move_element_frame; [exact E1| |exact H1].
    destruct (lookup key (st_owned st)) as [l|] eqn:El; [|destruct Hid].
    apply (all_lookup (fun l => incl l V0) _ _ _ (proj1 (proj2 I)) El). exact Hid.
  Qed.

  Lemma reach_frontier_inside (s : system F) st acc id acc' : incl (snd acc) V0 -> In id V0 ->
    reach_frontier s st acc id = Done acc' -> incl (snd acc') V0.
  Proof.
    destruct acc as [r es]. unfold reach_frontier. simpl. intros He Hi H.
    apply obind_done in H. destruct H as (e & _ & H). destruct (is_point e); [|inversion H; subst; auto].
    apply obind_done in H. destruct H as (r' & _ & H). cbv zeta in H. inversion H; subst. simpl. clear H.
    destruct (_ && _)%bool; [|auto]. apply incl_app; [auto|]. intros x [<-|[]]. auto.
  Qed.
  Lemma reach_loop_inside (s : system F) st (Hst : step_inside V0 st) : forall fuel i reachable elements elements',
    incl elements V0 -> reach_loop fuel i s st reachable elements = Done elements' -> incl elements' V0.
  Proof.
    induction fuel as [|fuel IH]; intros i reachable elements elements' He H; cbn [reach_loop] in H;
      destruct (nth_error reachable i) as [c|]; try discriminate; try (inversion H; subst; auto; fail).
    apply obind_done in H. destruct H as (fs & Hf & H). apply ounwrap_done in Hf.
    apply obind_done in H. destruct H as ([r es] & Hr & H). eapply IH; [|exact H].
    pose proof (ofold_inv (fun acc : list nat * list nat => incl (snd acc) V0) (reach_frontier s st) fs) as Q.
    apply Q in Hr; [exact Hr| |exact He].
    intros a id a' Hid Ha E. eapply reach_frontier_inside; eauto.
    apply (all_lookup (fun l => incl l V0) _ _ _ (proj2 (proj2 Hst)) Hf). exact Hid.
  Qed.

  Definition keys_in (W : nat -> Prop) (m : fmap nat) : Prop := forall k v, In (k, v) m -> W k.
  Lemma keys_put (W : nat -> Prop) k v m : keys_in W m -> W k -> keys_in W (put k v m).
  Proof.
    intros H Hk. unfold put. destruct (lookup k m).
    - intros k' v' Hin. apply in_map_iff in Hin. destruct Hin as ([k'' v''] & E & Hin). simpl in E.
      destruct (k =? k''); inversion E; subst; [auto|]. now apply (H k' v').
    - intros k' v' Hin. apply in_app_iff in Hin. destruct Hin as [Hin|[E|[]]]; [now apply (H k' v')|].
      now inversion E; subst.
  Qed.

  Lemma clustered_build_frame (s : system F) st c values : sys_elements s = els -> step_inside V0 st ->
    clustered_build s st = Done (c, values) -> keys_in of_component (cs_mapping c).
  Proof.
    intros E I H. unfold clustered_build in H.
    apply obind_done in H. destruct H as (es & _ & H). apply obind_done in H. destruct H as (reachable & _ & H).
    apply obind_done in H. destruct H as (elements & Hr & H).
    apply reach_loop_inside in Hr; [|auto|apply I].
    apply obind_done in H. destruct H as ([clusters n] & _ & H).
    apply obind_done in H. destruct H as ([mapping vs] & Hm & H). inversion H; subst. clear H. cbn [cs_mapping].
    pose proof (ofold_inv (fun acc : fmap nat * list F => keys_in of_component (fst acc)) (element_values s) elements) as Q.
    apply Q in Hm; [exact Hm| |intros k v []]. clear Q Hm.
    intros [m vs] id [m' vs'] Hid Hk H. cbn [fst] in *. unfold element_values in H.
    apply obind_done in H. destruct H as (e & He & H). apply oget_done in He. rewrite E in He. apply Hr in Hid.
    destruct e as [idx|idx|a b|a b]; try (inversion H; subst; auto; fail).
    - apply obind_done in H. destruct H as (x & _ & H). inversion H; subst. apply keys_put; [auto|].
      exists id, (ELength idx). simpl. auto.
    - apply obind_done in H. destruct H as (x & _ & H). apply obind_done in H. destruct H as (y & _ & H). inversion H; subst.
      apply keys_put; [apply keys_put; [auto|]|]; exists id, (EPoint idx); simpl; rewrite ?Nat.add_1_r; auto.
  Qed.

  Lemma solve_step_frame optimize scale (s s' : system F) st : sys_elements s = els -> step_inside V0 st ->
    solve_step optimize scale s st = Done s' -> rewritten of_component s s'.
  Proof.
    intros E I H. unfold solve_step in H.
    apply obind_done in H. destruct H as ([c values] & Hc & H).
    apply (clustered_build_frame _ _ _ _ E I) in Hc.
    apply obind_done in H. destruct H as (values' & _ & H).
    apply obind_done in H. destruct H as (s1 & H1 & H).
    assert (R1 : rewritten of_component s s1).
    { eapply ofold_rewritten; [exact E| |exact H1]. intros s2 [idx i] s3 Hin E2 H2.
      apply obind_done in H2. destruct H2 as (x & _ & H2). eapply write_variable_frame; [|exact H2].
      now apply (Hc idx i). }
    eapply rewritten_trans; [exact R1|].
    eapply ofold_rewritten; [|intros s2 ik s3 _ E2 H2; eapply move_cluster_frame; [exact E2|exact I|exact H2]|exact H].
    now rewrite (rewritten_elements _ _ _ R1).
  Qed.
End Frame.

(** What [solve] asks of the recursive-assembly branch *)
Lemma recursive_assembly_frame {F} {NF : Num F} optimize order fuel search scale es cs (s s' : system F) :
  (forall l, Permutation (order l) l) ->
  recursive_assembly optimize order fuel search scale es cs s = Done s' ->
  exists vs vt, s' = with_values vs vt s /\
    length vs = length (sys_variables s) /\
    length vt = length (sys_variables_transformed s) /\
    forall v, (forall id e, In id es -> nth_error (sys_elements s) id = Some e -> ~ In v (element_variables e)) ->
      nth_error vs v = nth_error (sys_variables s) v.
Proof.
  intros O H. unfold recursive_assembly in H.
  apply obind_done in H. destruct H as (plan & Hp & H).
  apply decompose_inside in Hp; [|auto].
  assert (R : rewritten (of_component es (sys_elements s)) s s').
  { eapply ofold_rewritten; [reflexivity| |exact H]. intros s1 st s2 Hst E1 H1.
    eapply solve_step_frame; [exact E1| |exact H1]. rewrite Forall_forall in Hp. auto. }
  destruct R as (vs & vt & E & L1 & L2 & R). exists vs, vt. split; [auto|]. split; [auto|]. split; [auto|].
  intros v Hv. apply R. intros (id & e & H1 & H2 & H3). exact (Hv id e H1 H2 H3).
Qed.

Lemma whole_env_ok {F} {NF : Num F} colamd sort fuel search order :
  (forall l, Permutation (order l) l) -> env_ok (whole_env colamd sort fuel search order).
Proof.
  intros O. split; [exact O|]. intros scale es cs s s' H. simpl in H. now apply recursive_assembly_frame in H.
Qed.
