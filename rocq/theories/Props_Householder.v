(** Property C36: Householder reflections, in exact arithmetic.  Statements use
    the model, [Spec_Linear.v] and [Spec_Qr.v] only. *)
From Coq Require Import List Reals Arith Lia Lra.
From Verif Require Import Num NumR Outcome ModelQr Spec_Linear Spec_Qr Proofs_Householder.
Import ListNotations.
Local Open Scope R_scope.

(** For every vector that has a component, a reflector is computed: it is
    orthogonal, and takes the vector to its norm times the first unit vector. *)
Theorem C36_reflector : forall v, v <> [] -> exists u nv beta,
  let n := length v in
  calculate_householder v = Done (u, nv, beta) /\ length u = n /\
  nv = norm v /\
  orthogonal n (reflect n beta (coords u)) /\
  forall i, (i < n)%nat -> reflect n beta (coords u) (coords v) i = nv * e1 i.
Proof.
  intros v Hv. destruct (householder_ok v Hv) as (u & nv & beta & E & L & Nv & B & Rv).
  exists u, nv, beta. cbn zeta. repeat split; auto. apply reflect_orthogonal. exact B.
Qed.
Print Assumptions C36_reflector.

(** A vector without components is refused (by a panic). *)
Theorem C36_empty : calculate_householder (@nil R) = Panic.
Proof. reflexivity. Qed.
Print Assumptions C36_empty.

(** Applying a sparse reflector does to the vector what the reflector does. *)
Theorem C36_apply : forall x beta rows values,
  Forall (fun r => r < length x)%nat rows -> NoDup rows -> length values = length rows ->
  exists x', apply_householder x beta rows values = Done x' /\ length x' = length x /\
    forall i, coords x' i = reflect (length x) beta (spread rows values) (coords x) i.
Proof. exact apply_householder_ok. Qed.
Print Assumptions C36_apply.

(** Both together: take the entries of [x] in some rows, compute their
    reflector, and apply it to any vector [y] of the same length.  The norm of
    [y] is preserved; and if [y] is [x], the first of the rows becomes the norm
    of the entries, the others vanish, and the rest stays. *)
Theorem C36_eliminate : forall (x y : list R) rows v u nv beta,
  Forall (fun r => r < length x)%nat rows -> NoDup rows -> rows <> [] ->
  v = map (coords x) rows -> length y = length x ->
  calculate_householder v = Done (u, nv, beta) ->
  exists y', apply_householder y beta rows u = Done y' /\ length y' = length y /\
    norm y' = norm y /\
    (y = x ->
      (forall k i, nth_error rows k = Some i -> coords y' i = if Nat.eqb k 0 then norm v else 0) /\
      (forall i, ~ In i rows -> coords y' i = coords x i)).
Proof.
  intros x y rows v u nv beta Hr Hn Hne -> Hy E.
  destruct (eliminate_ok (length x) (coords x) rows (map (coords x) rows) u nv beta) as (Lu & Nv & Or & El & St); auto.
  { now rewrite map_length. }
  { intros k Hk. unfold coords at 1. rewrite (nth_indep _ 0 (coords x 0%nat)) by now rewrite map_length.
    now rewrite map_nth. }
  destruct (apply_householder_ok y beta rows u) as (y' & E' & L & C).
  { now rewrite Hy. }
  { exact Hn. }
  { exact Lu. }
  exists y'. split; [exact E'|]. split; [exact L|]. split.
  - unfold norm. f_equal. rewrite L. rewrite (Proofs_Linear.inner_ext _ _ _ _ _ (fun i _ => C i) (fun i _ => C i)).
    rewrite Hy. apply Or.
  - intros ->. split.
    + intros k i Hk. rewrite C.
      assert (Hk' : (k < length rows)%nat) by (apply nth_error_Some; congruence).
      rewrite <- (nth_error_nth _ _ 0%nat Hk). rewrite El by assumption. rewrite Nv.
      unfold e1, delta. destruct k; cbn; lra.
    + intros i Hi. rewrite C. now apply St.
Qed.
Print Assumptions C36_eliminate.

(** The vector (0, 3, 7, 4) and its rows 1, 3: they become (5, 0). *)
Example C36_example :
  Forall (fun r => r < length [0; 3; 7; 4])%nat [1; 3]%nat /\ NoDup [1; 3]%nat /\
  exists u nv beta, calculate_householder (map (coords [0; 3; 7; 4]) [1; 3]%nat) = Done (u, nv, beta) /\ nv = 5.
Proof.
  split; [repeat constructor|]. split; [repeat constructor; cbn; lia|].
  destruct (C36_reflector (map (coords [0; 3; 7; 4]) [1; 3]%nat)) as (u & nv & beta & E & _ & Nv & _); [discriminate|].
  exists u, nv, beta. split; [exact E|]. rewrite Nv. unfold norm, inner, coords. cbn.
  replace (3 * 3 + (4 * 4 + 0)) with (5 * 5) by lra. apply sqrt_square. lra.
Qed.
