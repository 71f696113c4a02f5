(** C59: the frame of a picture, in exact arithmetic. *)
From Coq Require Import List Arith NArith ZArith Reals Lra.
From Verif Require Import Num NumR Outcome ModelExpr ModelSystem ModelSolve ModelApi ModelSvg
  Spec_Solver Spec_History Spec_Svg Demo DemoR Proofs_SvgFrame.
Import ListNotations.
Local Open Scope R_scope.

(** ** C59.  In exact arithmetic: if anything is drawn, the frame is the smallest
    rectangle around what is drawn with a margin of a tenth of its longer side;
    it has positive width and height as soon as the drawing is more than one
    point.  [p_infinity p] is any number that bounds the drawing. *)
Theorem C59_frame : forall (C : Type) (p : painter R C) (env : solver_env R)
    id (l : log R) s qs stroke_width drawn,
  env_ok env -> history env id l s ->
  In drawn (created_elements l) -> ~ hides qs drawn -> eh_tag drawn <> TLength ->
  (forall h v x y, In h (created_elements l) -> get_value h s = Done v -> covers v x y ->
     (Rabs x <= p_infinity p /\ Rabs y <= p_infinity p)%R) ->
  exists below above a b c d,
    layer (p_default p) qs s lower (created_elements l) below /\
    layer (p_default p) qs s upper (created_elements l) above /\
    tight (below ++ above) a b c d /\
    let m := (Rmax (c - a) (d - b) / 10)%R in
    render_system p (asked qs) None stroke_width s =
      Done (print_picture p stroke_width (a - m) (b - m) ((c - a) + 2 * m) ((d - b) + 2 * m) (below ++ above)) /\
    ((exists sh sh' x y x' y', In sh (below ++ above) /\ In sh' (below ++ above) /\
        covers (sh_value sh) x y /\ covers (sh_value sh') x' y' /\ (x, y) <> (x', y')) ->
     0 < (c - a) + 2 * m /\ 0 < (d - b) + 2 * m)%R.
Proof. exact @framed. Qed.
Print Assumptions C59_frame.
(** Two points and a circle around the first, drawn within [-10, 10] *)
Example C59_example : exists l s,
  history rdemo_env 7%N l s /\ created_elements l = [dp 0; dp 1; EHandle 7%N 2 TLength; EHandle 7%N 3 TCircle] /\
  get_value (dp 0) s = Done (VPoint (3, 4)) /\ get_value (dp 1) s = Done (VPoint (5, -2)) /\
  get_value (EHandle 7%N 3 TCircle) s = Done (VCircle (3, 4) 1) /\
  (forall h v x y, In h (created_elements l) -> get_value h s = Done v -> covers v x y ->
     Rabs x <= 10 /\ Rabs y <= 10).
Proof.
  destruct (two_and_circle rdemo_env 3 4 5 (-2) 1) as (l & s & H & E & G0 & G1 & G2 & G3).
  exists l, s. split; [exact H|]. split; [exact E|]. split; [exact G0|]. split; [exact G1|].
  split; [exact G3|]. intros h v x y I G K. rewrite E in I.
  assert (B : forall z, -10 <= z <= 10 -> Rabs z <= 10).
  { intros z Z. unfold Rabs. destruct (Rcase_abs z); lra. }
  destruct I as [<-|[<-|[<-|[<-|[]]]]].
  - rewrite G0 in G. apply done_inj in G. subst v. cbn in K. inversion K. split; apply B; lra.
  - rewrite G1 in G. apply done_inj in G. subst v. cbn in K. inversion K. split; apply B; lra.
  - rewrite G2 in G. apply done_inj in G. subst v. contradiction.
  - rewrite G3 in G. apply done_inj in G. subst v. cbn in K.
    pose proof (circle_bound _ _ _ K) as B1. rewrite Rplus_comm in K. pose proof (circle_bound _ _ _ K) as B2.
    rewrite Rabs_R1 in *. split; apply B; lra.
Qed.
