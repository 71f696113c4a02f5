(** Property C22: the perturbation of start values. *)
From Coq Require Import List Arith NArith ZArith Reals Lra Lia.
From Coq Require Import Floats.SpecFloat.
From Verif Require Import Num NumR Outcome Lib ModelGraph ModelSystem ModelSolve
  Proofs_Random Proofs_F64 Proofs_Perturb.
Import ListNotations.

(** ** C22 *)
(** From any seed, no two of the first 2^32 states are equal, and after 2^32
    draws the generator is back at the seed. *)
Theorem C22_full_period : forall s : N, (s < 2 ^ 32)%N ->
  (forall i j, (N.of_nat i < 2 ^ 32)%N -> (N.of_nat j < 2 ^ 32)%N ->
     Nat.iter i lcg s = Nat.iter j lcg s -> i = j) /\
  N.iter (2 ^ 32) lcg s = s.
Proof. intros s H. split; [intros i j; exact (lcg_distinct s i j H)|exact (lcg_period s H)]. Qed.
Print Assumptions C22_full_period.
(** Seed 0 gives the sequence printed in Numerical Recipes *)
Example C22_period_example : (0 < 2 ^ 32)%N /\
  map (fun n => Nat.iter n lcg 0%N) [1; 2; 3; 4] = [1013904223; 1196435762; 3519870697; 2868466484]%N.
Proof. split; [reflexivity|vm_compute; reflexivity]. Qed.

(** Every number drawn is in [0, 1], in binary64 arithmetic. *)
Theorem C22_unit_interval : forall rng : N,
  SFleb (f64_ofZ 0) (snd (next_f64 rng)) = true /\ SFleb (snd (next_f64 rng)) (f64_ofZ 1) = true.
Proof. exact next_f64_range. Qed.
Print Assumptions C22_unit_interval.
(** The bound 1 is reached (at the largest [u32]). *)
Example C22_unit_example : exists rng : N, lcg rng = (2 ^ 32 - 1)%N /\ snd (next_f64 rng) = f64_ofZ 1.
Proof. exists 653637408%N. vm_compute. auto. Qed.

(** The perturbation in any arithmetic: the k-th free variable moves by the
    numbers 2k and 2k+1 of the stream, the others do not move.  [draw rng n] is
    the n-th number drawn from state [rng]. *)
Theorem C22_perturbation : forall (F : Type) (NF : Num F) free rng (vt : list F) rng' vt',
  NoDup free -> perturb_variables free rng vt = Done (rng', vt') ->
  rng' = Nat.iter (2 * length free) lcg rng /\ length vt' = length vt /\
  (forall v, ~ In v free -> nth_error vt' v = nth_error vt v) /\
  (forall k v x, nth_error free k = Some v -> nth_error vt v = Some x ->
     nth_error vt' v =
       Some (x + (x * (nunit / nofZ 8196) * draw rng (2 * k)
                  + (nunit / nofZ 65568) * draw rng (2 * k + 1)))%num).
Proof. intros F NF free. exact (perturb_spec free). Qed.
Print Assumptions C22_perturbation.

(** In exact arithmetic a scaled coordinate moves by at most 1/8196 of itself
    plus 1/65568. *)
Theorem C22_bound : forall free rng (vt : list R) rng' vt',
  NoDup free -> perturb_variables free rng vt = Done (rng', vt') ->
  forall v x x', nth_error vt v = Some x -> nth_error vt' v = Some x' ->
    (Rabs (x' - x) <= Rabs x / 8196 + 1 / 65568)%R.
Proof. exact perturb_bound. Qed.
Print Assumptions C22_bound.

(** The stream starts at 42 in every call of [solve] and is used without gaps
    or repetition, group after group; without the option nothing is drawn. *)
Theorem C22_stream : forall (F : Type) (NF : Num F) (env : solver_env F) opts scale rng s c rng' s',
  solve_component env opts scale (rng, s) c = Done (rng', s') ->
  if o_perturb opts then
    exists free, component_free_variables s (c_elements c) = Done free /\ NoDup free /\
      rng' = Nat.iter (2 * length free) lcg rng
  else rng' = rng.
Proof. intros F NF. exact component_stream. Qed.
Print Assumptions C22_stream.

Example C22_example : NoDup [0; 2] /\ exists rng' (vt' : list f64),
  perturb_variables [0; 2] 42%N [f64_ofZ 1; f64_ofZ 2; f64_ofZ 3] = Done (rng', vt') /\
  nth_error vt' 1 = Some (f64_ofZ 2) /\ nth_error vt' 0 <> Some (f64_ofZ 1) /\ nth_error vt' 2 <> Some (f64_ofZ 3).
Proof.
  split; [repeat constructor; simpl; intuition lia|].
  eexists _, _. split; [vm_compute; reflexivity|]. repeat split; vm_compute; congruence.
Qed.
Example C22_bound_example : NoDup [0; 2] /\ exists rng' (vt' : list R),
  perturb_variables [0; 2] 42%N [1; 2; 3]%R = Done (rng', vt') /\ nth_error vt' 1 = Some 2%R.
Proof.
  split; [repeat constructor; simpl; intuition lia|]. eexists _, _. split; reflexivity.
Qed.
