(** Concrete histories, used only in the examples beside the theorems. *)
From Coq Require Import List Arith NArith ZArith Bool Permutation.
From Verif Require Import Num Outcome ModelExpr ModelGraph ModelSystem ModelSolve
  ModelApi Spec_Solver Spec_History.
Import ListNotations.

Section Replay.
  Context {F : Type} {NF : Num F}.

  Definition returned_element (l : log F) (h : ehandle) : bool :=
    existsb (fun cr => match snd cr with RElement h' => if ehandle_dec h' h then true else false | _ => false end) l.
  Definition returned_constraint (l : log F) (h : chandle) : bool :=
    existsb (fun cr => match snd cr with RConstraint h' => if chandle_dec h' h then true else false | _ => false end) l.
  Lemma returned_element_in l h : returned_element l h = true -> In (RElement h) (map snd l).
  Proof.
    unfold returned_element. rewrite existsb_exists. intros ([c r] & H & E). simpl in E.
    destruct r; try discriminate. destruct (ehandle_dec h0 h); [subst|discriminate].
    apply in_map_iff. exists (c, RElement h). auto.
  Qed.
  Lemma returned_constraint_in l h : returned_constraint l h = true -> In (RConstraint h) (map snd l).
  Proof.
    unfold returned_constraint. rewrite existsb_exists. intros ([c r] & H & E). simpl in E.
    destruct r; try discriminate. destruct (chandle_dec h0 h); [subst|discriminate].
    apply in_map_iff. exists (c, RConstraint h). auto.
  Qed.

  (** [allowed], computed *)
  Definition allowedb (l : log F) (c : call F) : bool :=
    forallb (fun ht => returned_element l (fst ht) &&
                       match snd ht with Some t => if tag_dec (eh_tag (fst ht)) t then true else false | None => true end)
            (call_elements c) &&
    forallb (returned_constraint l) (call_constraints c) &&
    match c with UpdateParameter h _ => has_parameter (ch_tag h) | _ => true end.
  Lemma allowedb_allowed l c : allowedb l c = true -> allowed l c.
  Proof.
    unfold allowedb. rewrite !andb_true_iff, !forallb_forall. intros [[H1 H2] H3]. split; [|split].
    - intros h t Hin. specialize (H1 _ Hin). simpl in H1. apply andb_true_iff in H1. destruct H1 as [H1 H4].
      split; [now apply returned_element_in|]. intros t' ->. destruct (tag_dec (eh_tag h) t'); [auto|discriminate].
    - intros h Hin. apply returned_constraint_in. auto.
    - destruct c; auto.
  Qed.

  (** Make the calls one after the other, recording what they return *)
  Fixpoint replay (env : solver_env F) (cs : list (call F)) (l : log F) (s : system F)
    : option (log F * system F) :=
    match cs with
    | [] => Some (l, s)
    | c :: cs =>
        if allowedb l c then
          match step env c s with
          | Done (s', r) => replay env cs ((c, r) :: l) s'
          | _ => None
          end
        else None
    end.
  Lemma replay_history env id cs : forall l s l' s', history env id l s ->
    replay env cs l s = Some (l', s') -> history env id l' s'.
  Proof.
    induction cs as [|c cs IH]; simpl; intros l s l' s' H E.
    - inversion E; subst; auto.
    - destruct (allowedb l c) eqn:A; [|discriminate].
      destruct (step env c s) as [[s1 r]| |] eqn:S; try discriminate.
      eapply IH; [|exact E]. econstructor; eauto. now apply allowedb_allowed.
  Qed.
End Replay.

(** An optimizer that moves every coordinate by one and a recursive assembly
    that does nothing *)
Definition demo_env : solver_env f64 := {|
  env_optimize := fun _ p x => Done (map (fun v => nadd v nunit) x);
  env_order := fun l => rev l;
  env_assembly := fun _ _ _ s => Done s
|}.
Lemma demo_env_ok : env_ok demo_env.
Proof.
  split.
  - intros l. simpl. apply Permutation_sym, Permutation_rev.
  - intros scale es cs s s' H. simpl in H. inversion H; subst.
    exists (sys_variables s'), (sys_variables_transformed s'). destruct s'; auto.
Qed.
Lemma demo_env_safe : env_safe demo_env.
Proof.
  split; simpl; intros; [discriminate|]. inversion H1; subst. now rewrite map_length.
Qed.

Definition z64 (z : Z) : f64 := nofZ z.
Definition dp (i : nat) : ehandle := EHandle 7%N i TPoint.
(** A triangle with a circle; one point fixed, one point without constraints *)
Definition demo_calls : list (call f64) := [
  CreatePoint (z64 0) (z64 0);                         (* 0 *)
  CreatePoint (z64 3) (z64 0);                         (* 1 *)
  CreatePoint (z64 3) (z64 4);                         (* 2 *)
  CreateLength (z64 2);                                (* 3 *)
  CreateLine (dp 0) (dp 1);                            (* 4 *)
  CreateCircle (dp 2) (EHandle 7%N 3 TLength);         (* 5 *)
  CreatePoint (z64 8) (z64 8);                         (* 6 *)
  Fix (dp 0);
  CreatePointPointDistance (dp 0) (dp 1) (z64 5);      (* constraint 0 *)
  CreatePointLineIncidence (dp 2) (EHandle 7%N 4 TLine); (* constraint 1 *)
  UpdatePoint (dp 6) (z64 9) (z64 1);
  UpdateParameter (CHandle 7%N 0 CPointPointDistance) (z64 6)
].
Definition demo_log : log f64 :=
  match replay demo_env demo_calls [] (system_new 7%N) with Some (l, _) => l | None => [] end.
Definition demo_state : system f64 :=
  match replay demo_env demo_calls [] (system_new 7%N) with Some (_, s) => s | None => system_new 7%N end.
Lemma demo_history : history demo_env 7%N demo_log demo_state.
Proof.
  apply (replay_history demo_env 7%N demo_calls [] (system_new 7%N)); [constructor|].
  unfold demo_log, demo_state. destruct (replay _ _ _ _) as [[l s]|] eqn:E; [auto|].
  vm_compute in E. discriminate.
Qed.
Lemma demo_no_solve : no_solve demo_log.
Proof. intros o r H. vm_compute in H. repeat (destruct H as [H|H]; [discriminate|]). exact H. Qed.
(** The same history followed by other calls *)
Definition demo_after (cs : list (call f64)) : option (log f64 * system f64) :=
  replay demo_env cs demo_log demo_state.
