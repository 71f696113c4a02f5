(** C58, and C59 for degenerate drawings: pictures of sketches. *)
From Coq Require Import List Arith NArith ZArith Ascii String.
From Coq Require Import Floats.SpecFloat.
From Verif Require Import Num Outcome ModelExpr ModelSystem ModelSolve ModelApi ModelSvg
  Spec_Solver Spec_History Spec_Svg Demo Proofs_Svg.
Import ListNotations.

(** ** C58.  Whatever was asked of the renderer, and whatever the history of the
    sketch, rendering returns a picture, and it consists of two layers: below,
    each line and circle, and above, each point; in order of creation, except
    the hidden ones; each with the value a client reads and the colour last
    asked for.  A rectangle given by the caller is the frame. *)
Theorem C58_picture : forall (F : Type) (NF : Num F) (C : Type) (p : painter F C) (env : solver_env F)
    id (l : log F) s qs viewbox stroke_width,
  env_ok env -> history env id l s ->
  exists below above x y w h,
    layer (p_default p) qs s lower (created_elements l) below /\
    layer (p_default p) qs s upper (created_elements l) above /\
    render_system p (asked qs) viewbox stroke_width s =
      Done (print_picture p stroke_width x y w h (below ++ above)) /\
    (forall b, viewbox = Some b ->
       x = rx0 b /\ y = ry0 b /\ w = nsub (rx1 b) (rx0 b) /\ h = nsub (ry1 b) (ry0 b)).
Proof.
  intros F NF C p env id l s qs vb sw EO H.
  destruct (picture p env id l s EO H qs sw vb) as (below & above & vs & L & U & _ & _ & E).
  exists below, above. do 4 eexists. split; [exact L|]. split; [exact U|]. split; [exact E|].
  intros b ->. auto.
Qed.
Print Assumptions C58_picture.

(** In such layers every element that is not hidden and not a length occurs
    once, nothing else occurs, and the [id]s in the picture differ. *)
Theorem C58_once : forall (F : Type) (NF : Num F) (C : Type) (default : C) (env : solver_env F)
    id (l : log F) s qs below above,
  env_ok env -> history env id l s ->
  layer default qs s lower (created_elements l) below ->
  layer default qs s upper (created_elements l) above ->
  NoDup (map (fun sh => as_id (sh_of sh)) (below ++ above)) /\
  (forall h, In h (map sh_of (below ++ above)) <->
     In h (created_elements l) /\ ~ hides qs h /\ eh_tag h <> TLength) /\
  (forall sh, In sh (below ++ above) -> get_value (sh_of sh) s = Done (sh_value sh) /\
     forall c, colored default (sh_of sh) qs c <-> c = sh_color sh).
Proof.
  intros F NF C default env id l s qs below above EO H L U.
  destruct (once (Painter F C nzero (fun _ => EmptyString) (fun _ => EmptyString) (fun _ => EmptyString) (fun c => c) default)
              env id l s EO H qs below above L U) as [N I].
  split; [exact N|]. split; [exact I|]. intros sh J.
  assert (K : get_value (sh_of sh) s = Done (sh_value sh) /\ colored default (sh_of sh) qs (sh_color sh)).
  { apply in_app_or in J. destruct J as [J|J].
    - destruct (layer_in _ _ _ _ _ _ L _ J) as (_ & _ & G & _ & D). auto.
    - destruct (layer_in _ _ _ _ _ _ U _ J) as (_ & _ & G & _ & D). auto. }
  split; [apply K|]. intros c. split; [|intros ->; apply K].
  intros D. eapply colored_unique; [exact D|apply K].
Qed.
Print Assumptions C58_once.

(** A painter for the examples: numbers up to twelve in decimals, colours by
    name *)
Definition demo_show (x : f64) : string :=
  let names := ["0"; "1"; "2"; "3"; "4"; "5"; "6"; "7"; "8"; "9"; "10"; "11"; "12"]%string in
  match x with
  | S754_infinity false => "inf"
  | S754_infinity true => "-inf"
  | _ => match find (fun iz => neqb x (nofZ (Z.of_nat (fst iz)))) (combine (seq 0 13) names) with
         | Some (_, n) => n
         | None => "?"
         end
  end%string.
Definition demo_painter : painter f64 string := {|
  p_infinity := S754_infinity false;
  p_show := demo_show;
  p_show_id := fun n => demo_show (nofZ (Z.of_N (n mod 2 ^ 32)));
  p_hex := fun c => c;
  p_lighten := fun c => ("light" ++ c)%string;
  p_default := "black"%string
|}.
(** Single quotes made double *)
Fixpoint dquotes (x : string) : string :=
  match x with
  | EmptyString => EmptyString
  | String a x => String (if Ascii.eqb a "'" then """" else a)%char (dquotes x)
  end.
(** The sketch of [Demo.v] with a point hidden, the line coloured twice, and a
    request for an element of another sketch with the same number *)
Example C58_example :
  env_ok demo_env /\ history demo_env 7%N demo_log demo_state /\
  render_system demo_painter
    (asked [SetColor (EHandle 7%N 4 TLine) "red"%string; Hide (dp 1);
            SetColor (EHandle 7%N 4 TLine) "blue"%string; Hide (EHandle 8%N 0 TPoint)])
    (Some (Rect (z64 0) (z64 1) (z64 10) (z64 12))) (z64 4) demo_state =
  Done (dquotes ("<svg xmlns='http://www.w3.org/2000/svg' viewBox='0 1 10 11'>"
    ++ "<line x1='0' y1='0' x2='3' y2='0' stroke='blue' stroke-width='4' id='line-4'/>"
    ++ "<circle cx='3' cy='4' r='2' stroke='black' stroke-width='4' fill='none' id='circle-5'/>"
    ++ "<circle cx='0' cy='0' r='4' stroke='black' stroke-width='1' fill='lightblack' id='point-0'/>"
    ++ "<circle cx='3' cy='4' r='4' stroke='black' stroke-width='1' fill='lightblack' id='point-2'/>"
    ++ "<circle cx='9' cy='1' r='4' stroke='black' stroke-width='1' fill='lightblack' id='point-6'/>"
    ++ "</svg>")%string).
Proof. split; [exact demo_env_ok|]. split; [exact demo_history|]. vm_compute. reflexivity. Qed.

(** ** C59.  Full statement: when the caller gives no rectangle, the frame
    encloses everything that is drawn and has positive width and height.

    It holds in exact arithmetic for drawings of more than one point
    (Props_SvgFrame.v), and not otherwise.

    The frame of the picture of a sketch without elements is "inf inf -inf
    -inf", and that of a sketch with one point has width and height zero.  (SVG
    viewers draw nothing in either.) *)
Theorem C59_degenerate_refuted :
  (exists l s, history demo_env 7%N l s /\ created_elements l = [] /\
     render_system demo_painter renderer_new None (z64 4) s =
     Done (print_picture demo_painter (z64 4) (S754_infinity false) (S754_infinity false)
             (S754_infinity true) (S754_infinity true) [])) /\
  (exists l s, history demo_env 7%N l s /\ created_elements l = [dp 0] /\
     get_value (dp 0) s = Done (VPoint (z64 3, z64 4)) /\
     render_system demo_painter renderer_new None (z64 4) s =
     Done (print_picture demo_painter (z64 4) (z64 3) (z64 4) (z64 0) (z64 0)
             [Shape (dp 0) (VPoint (z64 3, z64 4)) "black"%string])).
Proof.
  split.
  - exists [], (system_new 7%N). split; [constructor|]. split; [reflexivity|]. vm_compute. reflexivity.
  - destruct (replay demo_env [CreatePoint (z64 3) (z64 4)] [] (system_new 7%N)) as [[l s]|] eqn:E;
      [|vm_compute in E; discriminate].
    exists l, s. split; [exact (replay_history _ _ _ _ _ _ _ (h_new _ _) E)|].
    vm_compute in E. inversion E; subst. split; [reflexivity|]. split; [reflexivity|]. vm_compute. reflexivity.
Qed.
Print Assumptions C59_degenerate_refuted.

(** Finite coordinates can overflow: two points whose distance exceeds the
    largest binary64 number get the frame "-inf -inf inf inf". *)
Theorem C59_overflow_refuted : exists l s,
  history demo_env 7%N l s /\ created_elements l = [dp 0; dp 1] /\
  get_value (dp 0) s = Done (VPoint (z64 (- 2 ^ 1023), z64 0)) /\
  get_value (dp 1) s = Done (VPoint (z64 (2 ^ 1023), z64 0)) /\
  render_system demo_painter renderer_new None (z64 4) s =
  Done (print_picture demo_painter (z64 4) (S754_infinity true) (S754_infinity true)
          (S754_infinity false) (S754_infinity false)
          [Shape (dp 0) (VPoint (z64 (- 2 ^ 1023), z64 0)) "black"%string;
           Shape (dp 1) (VPoint (z64 (2 ^ 1023), z64 0)) "black"%string]).
Proof.
  destruct (replay demo_env [CreatePoint (z64 (- 2 ^ 1023)) (z64 0); CreatePoint (z64 (2 ^ 1023)) (z64 0)] [] (system_new 7%N))
    as [[l s]|] eqn:E; [|vm_compute in E; discriminate].
  exists l, s. split; [exact (replay_history _ _ _ _ _ _ _ (h_new _ _) E)|].
  vm_compute in E. inversion E; subst. split; [reflexivity|]. split; [vm_compute; reflexivity|].
  split; [vm_compute; reflexivity|]. vm_compute. reflexivity.
Qed.
Print Assumptions C59_overflow_refuted.
