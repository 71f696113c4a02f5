(** C48: handles as keys of ordered and hashed collections. *)
From Coq Require Import List Arith NArith ZArith.
From Verif Require Import Num Outcome ModelExpr ModelSystem ModelSolve ModelApi ModelHandle
  Spec_Solver Spec_History Demo Proofs_World Proofs_Handle.
Import ListNotations.

(** ** C48.  Two handles are equal exactly when they compare as equal, and
    exactly when they give any hasher the same words. *)
Theorem C48_elements_agree : forall a b : ehandle,
  (ehandle_eqb a b = true <-> ehandle_cmp a b = Eq) /\
  (ehandle_eqb a b = true <-> ehandle_words a = ehandle_words b).
Proof. exact ehandle_keys. Qed.
Print Assumptions C48_elements_agree.
Theorem C48_constraints_agree : forall a b : chandle,
  (chandle_eqb a b = true <-> chandle_cmp a b = Eq) /\
  (chandle_eqb a b = true <-> chandle_words a = chandle_words b).
Proof. exact chandle_keys. Qed.
Print Assumptions C48_constraints_agree.

(** The order is total: exchanging the arguments reverses the answer, and
    "less than" is transitive. *)
Theorem C48_total : 
  (forall a b : ehandle, ehandle_cmp b a = CompOpp (ehandle_cmp a b)) /\
  (forall a b c : ehandle, ehandle_cmp a b = Lt -> ehandle_cmp b c = Lt -> ehandle_cmp a c = Lt) /\
  (forall a b : chandle, chandle_cmp b a = CompOpp (chandle_cmp a b)) /\
  (forall a b c : chandle, chandle_cmp a b = Lt -> chandle_cmp b c = Lt -> chandle_cmp a c = Lt).
Proof.
  exact (conj (fun a b => pair_cmp_antisym _ _) (conj (fun a b c => pair_cmp_trans _ _ _)
        (conj (fun a b => pair_cmp_antisym _ _) (fun a b c => pair_cmp_trans _ _ _)))).
Qed.
Print Assumptions C48_total.

(** In any run of a process that makes at most 2^32 systems, the order of the
    handles its calls return is the order of creation: that of the systems for
    handles of different systems, and that of the calls within one system. *)
Theorem C48_element_order : forall (F : Type) (NF : Num F) (env : solver_env F) cs w rs i j a b c d h k,
  env_ok env -> wrun env cs world_new = Done (w, rs) -> (systems_created cs <= 2 ^ 32)%N ->
  nth_error cs i = Some (WCall a c) -> nth_error rs i = Some (Some (RElement h)) ->
  nth_error cs j = Some (WCall b d) -> nth_error rs j = Some (Some (RElement k)) ->
  ehandle_cmp h k = if Nat.eqb a b then Nat.compare i j else Nat.compare a b.
Proof. exact @element_order. Qed.
Print Assumptions C48_element_order.
Theorem C48_constraint_order : forall (F : Type) (NF : Num F) (env : solver_env F) cs w rs i j a b c d h k,
  env_ok env -> wrun env cs world_new = Done (w, rs) -> (systems_created cs <= 2 ^ 32)%N ->
  nth_error cs i = Some (WCall a c) -> nth_error rs i = Some (Some (RConstraint h)) ->
  nth_error cs j = Some (WCall b d) -> nth_error rs j = Some (Some (RConstraint k)) ->
  chandle_cmp h k = if Nat.eqb a b then Nat.compare i j else Nat.compare a b.
Proof. exact @constraint_order. Qed.
Print Assumptions C48_constraint_order.

(** The point created second, in the second system, comes after the point
    created third, in the first system, although its id is smaller. *)
Example C48_example :
  let cs := [WNew; WCall 0 (CreatePoint (z64 0) (z64 1)); WNew;
             WCall 1 (CreatePoint (z64 0) (z64 1)); WCall 0 (CreatePoint (z64 2) (z64 2))] in
  (systems_created cs <= 2 ^ 32)%N /\
  exists w rs h k, wrun demo_env cs world_new = Done (w, rs) /\
    nth_error rs 3 = Some (Some (RElement h)) /\ nth_error rs 4 = Some (Some (RElement k)) /\
    ehandle_cmp h k = Gt /\ eh_id h < eh_id k.
Proof.
  split; [vm_compute; discriminate|].
  eexists _, _, (EHandle 1%N 0 TPoint), (EHandle 0%N 1 TPoint).
  split; [vm_compute; reflexivity|]. repeat split; auto.
Qed.
