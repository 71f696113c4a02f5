(** Model of the SVG renderer: /repo/fiksi_svg/src/lib.rs.

    The crates it uses are arguments: how numbers and colours are printed, how a
    colour is lightened.  The rectangle operations of [kurbo] are written out
    (their definitions are not in /repo; they are those of kurbo's
    documentation: componentwise minima and maxima). *)
From Coq Require Import List Arith NArith ZArith String.
From Verif Require Import Num Outcome ModelExpr ModelSystem.
Import ListNotations.

(** What the renderer takes from [core], [std], [color] and [kurbo].
    [p_infinity] is [f64::INFINITY]; [p_show] is [{}] of an [f64], [p_show_id]
    is [{}] of a [u64], [p_hex] is [{:0X}] of [to_rgba8()], [p_lighten] is
    [map_lightness(|l| (l + 0.3).clamp(0., 1.))]; lib.rs 100-107.  [p_default]
    is [DEFAULT_ELEMENT_COLOR], lib.rs 31. *)
Record painter (F C : Type) := Painter {
  p_infinity : F;
  p_show : F -> string;
  p_show_id : N -> string;
  p_hex : C -> string;
  p_lighten : C -> C;
  p_default : C
}.
Arguments p_infinity {F C}. Arguments p_show {F C}. Arguments p_show_id {F C}.
Arguments p_hex {F C}. Arguments p_lighten {F C}. Arguments p_default {F C}.

(** fiksi_svg/src/lib.rs 34-38.  The map and the set are only inserted into and
    looked up in; they are lists here, with the latest insertion first. *)
Record renderer (C : Type) := Renderer {
  r_colors : list (ehandle * C);
  r_hidden : list ehandle
}.
Arguments Renderer {C}. Arguments r_colors {C}. Arguments r_hidden {C}.

Section Renderer.
  Context {C : Type}.
  (** lib.rs 42-47 (and [Default], 166-170) *)
  Definition renderer_new : renderer C := Renderer [] [].
  (** lib.rs 50-57; the colour is given after its conversion to Oklab *)
  Definition set_element_color (h : ehandle) (c : C) (r : renderer C) : renderer C :=
    Renderer ((h, c) :: r_colors r) (r_hidden r).
  (** lib.rs 62-64 *)
  Definition hide_element (h : ehandle) (r : renderer C) : renderer C :=
    Renderer (r_colors r) (h :: r_hidden r).
  (** [self.hidden.contains(&handle)], lib.rs 91 *)
  Definition is_hidden (r : renderer C) (h : ehandle) : bool :=
    existsb (ehandle_eqb h) (r_hidden r).
  (** [self.colors.get(&handle)], lib.rs 97, 116, 134 *)
  Definition color_get (r : renderer C) (h : ehandle) : option C :=
    option_map snd (find (fun hc => ehandle_eqb h (fst hc)) (r_colors r)).
End Renderer.

(** [kurbo::Rect] *)
Record rect (F : Type) := Rect { rx0 : F; ry0 : F; rx1 : F; ry1 : F }.
Arguments Rect {F}. Arguments rx0 {F}. Arguments ry0 {F}. Arguments rx1 {F}. Arguments ry1 {F}.

Section Svg.
  Context {F : Type} {NF : Num F} {C : Type} (p : painter F C).
  Local Open Scope num_scope.

  (** [f64::max] and [f64::min]: if one argument is NaN, the other *)
  Definition fmax (x y : F) : F := if x =? x then (if x <? y then y else x) else y.
  Definition fmin (x y : F) : F := if x =? x then (if y <? x then y else x) else y.
  Definition width (b : rect F) : F := rx1 b - rx0 b.
  Definition height (b : rect F) : F := ry1 b - ry0 b.
  (** [Rect::union], [Rect::union_pt] and [Rect::inflate] *)
  Definition union (a b : rect F) : rect F :=
    Rect (fmin (rx0 a) (rx0 b)) (fmin (ry0 a) (ry0 b))
         (fmax (rx1 a) (rx1 b)) (fmax (ry1 a) (ry1 b)).
  Definition union_pt (a : rect F) (q : F * F) : rect F :=
    Rect (fmin (rx0 a) (fst q)) (fmin (ry0 a) (snd q))
         (fmax (rx1 a) (fst q)) (fmax (ry1 a) (snd q)).
  Definition inflate (b : rect F) (w h : F) : rect F :=
    Rect (rx0 b - w) (ry0 b - h) (rx1 b + w) (ry1 b + h).
  (** [Line::bounding_box] and [Circle::bounding_box] *)
  Definition line_box (a b : F * F) : rect F :=
    Rect (fmin (fst a) (fst b)) (fmin (snd a) (snd b))
         (fmax (fst a) (fst b)) (fmax (snd a) (snd b)).
  Definition circle_box (c : F * F) (radius : F) : rect F :=
    let r := nabs radius in
    Rect (fst c - r) (snd c - r) (fst c + r) (snd c + r).

  (** A double quote *)
  Definition q : string := String (Ascii.Ascii false true false false false true false false) EmptyString.
  (** [name="value"], with a space before it *)
  Definition attr (name value : string) : string :=
    (" " ++ name ++ "=" ++ q ++ value ++ q)%string.

  (** The loop variables of lib.rs 79-88 *)
  Record canvas := Canvas { cv_box : rect F; cv_top : string; cv_bottom : string }.

  (** The body of the loop, lib.rs 90-150 *)
  Definition draw (r : renderer C) (stroke_width : F) (s : system F) (cv : canvas) (h : ehandle)
    : outcome canvas :=
    if is_hidden r h then Done cv
    else
      let! v := get_value h s in
      let color := match color_get r h with Some c => c | None => p_default p end in
      match v with
      | VPoint a =>
          Done (Canvas (union_pt (cv_box cv) a)
            (cv_top cv ++ "<circle" ++ attr "cx" (p_show p (fst a)) ++ attr "cy" (p_show p (snd a))
              ++ attr "r" (p_show p stroke_width) ++ attr "stroke" (p_hex p color)
              ++ attr "stroke-width" (p_show p (stroke_width * (lit 1 / lit 4)))
              ++ attr "fill" (p_hex p (p_lighten p color))
              ++ attr "id" ("point-" ++ p_show_id p (as_id h)) ++ "/>")%string
            (cv_bottom cv))
      | VLine a b =>
          Done (Canvas (union (cv_box cv) (line_box a b))
            (cv_top cv)
            (cv_bottom cv ++ "<line" ++ attr "x1" (p_show p (fst a)) ++ attr "y1" (p_show p (snd a))
              ++ attr "x2" (p_show p (fst b)) ++ attr "y2" (p_show p (snd b))
              ++ attr "stroke" (p_hex p color) ++ attr "stroke-width" (p_show p stroke_width)
              ++ attr "id" ("line-" ++ p_show_id p (as_id h)) ++ "/>")%string)
      | VCircle c radius =>
          Done (Canvas (union (cv_box cv) (circle_box c radius))
            (cv_top cv)
            (cv_bottom cv ++ "<circle" ++ attr "cx" (p_show p (fst c)) ++ attr "cy" (p_show p (snd c))
              ++ attr "r" (p_show p radius) ++ attr "stroke" (p_hex p color)
              ++ attr "stroke-width" (p_show p stroke_width) ++ attr "fill" "none"
              ++ attr "id" ("circle-" ++ p_show_id p (as_id h)) ++ "/>")%string)
      | VLength _ => Done cv
      end.

  (** lib.rs 71-163, [SystemRenderer::render_system] *)
  Definition render_system (r : renderer C) (viewbox : option (rect F)) (stroke_width : F)
      (s : system F) : outcome string :=
    let inf := p_infinity p in
    let! cv := ofold (draw r stroke_width s) (get_element_handles s)
                 (Canvas (Rect inf inf (- inf) (- inf)) "" "") in
    let by_ := fmax (width (cv_box cv)) (height (cv_box cv)) * tenm 1 in
    let bbox := inflate (cv_box cv) by_ by_ in
    let viewbox := match viewbox with Some v => v | None => bbox end in
    Done ("<svg" ++ attr "xmlns" "http://www.w3.org/2000/svg"
          ++ attr "viewBox" (p_show p (rx0 viewbox) ++ " " ++ p_show p (ry0 viewbox) ++ " "
               ++ p_show p (width viewbox) ++ " " ++ p_show p (height viewbox))
          ++ ">" ++ cv_bottom cv ++ cv_top cv ++ "</svg>")%string.
End Svg.
