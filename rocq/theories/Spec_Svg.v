(** What a picture of a sketch should be, without the renderer's tables and
    strings: a list of coloured shapes in drawing order (later ones are painted
    over earlier ones), and a frame. *)
From Coq Require Import List Arith NArith ZArith Reals String.
From Verif Require Import Num Outcome ModelSystem ModelSvg.
Import ListNotations.

(** What a client asks of a renderer before rendering *)
Inductive request (C : Type) : Type :=
| SetColor (h : ehandle) (c : C)
| Hide (h : ehandle).
Arguments SetColor {C}. Arguments Hide {C}.
Definition ask {C} (r : renderer C) (q : request C) : renderer C :=
  match q with
  | SetColor h c => set_element_color h c r
  | Hide h => hide_element h r
  end.
(** The renderer after these requests, made in this order *)
Definition asked {C} (qs : list (request C)) : renderer C := fold_left ask qs renderer_new.

(** Two handles to the same element: of the same system, with the same id *)
Definition same (h k : ehandle) : Prop := eh_system h = eh_system k /\ eh_id h = eh_id k.
(** Some request hides the element. *)
Definition hides {C} (qs : list (request C)) (h : ehandle) : Prop :=
  exists k, In (Hide k) qs /\ same h k.
(** The colour of an element: that of the last request for it, or the default. *)
Inductive colored {C} (default : C) (h : ehandle) : list (request C) -> C -> Prop :=
| colored_never : colored default h [] default
| colored_last qs k c : same h k -> colored default h (qs ++ [SetColor k c]) c
| colored_before qs q c :
    (forall k d, q = SetColor k d -> ~ same h k) ->
    colored default h qs c -> colored default h (qs ++ [q]) c.

(** A shape of the picture: what it is of, where it is, and its colour *)
Record shape (F C : Type) := Shape {
  sh_of : ehandle;
  sh_value : element_value F;
  sh_color : C
}.
Arguments Shape {F C}. Arguments sh_of {F C}. Arguments sh_value {F C}. Arguments sh_color {F C}.

(** Points are drawn in an upper layer, lines and circles in a lower one;
    lengths are not drawn. *)
Definition upper {F} (v : element_value F) : bool :=
  match v with VPoint _ => true | _ => false end.
Definition lower {F} (v : element_value F) : bool :=
  match v with VLine _ _ | VCircle _ _ => true | _ => false end.

(** One layer of a picture: of the elements [hs], in that order, each one that
    is not hidden and belongs in the layer, with the value a client reads and
    its colour *)
Inductive layer {F} {NF : Num F} {C} (default : C) (qs : list (request C)) (s : system F)
    (belongs : element_value F -> bool) : list ehandle -> list (shape F C) -> Prop :=
| layer_end : layer default qs s belongs [] []
| layer_hidden h hs shapes : hides qs h ->
    layer default qs s belongs hs shapes -> layer default qs s belongs (h :: hs) shapes
| layer_other h v hs shapes : get_value h s = Done v -> belongs v = false ->
    layer default qs s belongs hs shapes -> layer default qs s belongs (h :: hs) shapes
| layer_drawn h v c hs shapes : ~ hides qs h -> get_value h s = Done v -> belongs v = true ->
    colored default h qs c ->
    layer default qs s belongs hs shapes ->
    layer default qs s belongs (h :: hs) (Shape h v c :: shapes).

(** The text of a shape *)
Section Print.
  Context {F : Type} {NF : Num F} {C : Type} (p : painter F C) (stroke_width : F).
  Local Open Scope string_scope.
  Definition print_shape (sh : shape F C) : string :=
    let x := p_show p in
    let id := p_show_id p (as_id (sh_of sh)) in
    let stroke := p_hex p (sh_color sh) in
    match sh_value sh with
    | VPoint a =>
        "<circle" ++ attr "cx" (x (fst a)) ++ attr "cy" (x (snd a))
        ++ attr "r" (x stroke_width) ++ attr "stroke" stroke
        ++ attr "stroke-width" (x (nmul stroke_width (ndiv (lit 1) (lit 4))))
        ++ attr "fill" (p_hex p (p_lighten p (sh_color sh))) ++ attr "id" ("point-" ++ id) ++ "/>"
    | VLine a b =>
        "<line" ++ attr "x1" (x (fst a)) ++ attr "y1" (x (snd a))
        ++ attr "x2" (x (fst b)) ++ attr "y2" (x (snd b))
        ++ attr "stroke" stroke ++ attr "stroke-width" (x stroke_width)
        ++ attr "id" ("line-" ++ id) ++ "/>"
    | VCircle c r =>
        "<circle" ++ attr "cx" (x (fst c)) ++ attr "cy" (x (snd c))
        ++ attr "r" (x r) ++ attr "stroke" stroke ++ attr "stroke-width" (x stroke_width)
        ++ attr "fill" "none" ++ attr "id" ("circle-" ++ id) ++ "/>"
    | VLength _ => ""
    end.
  (** The text of a picture with these shapes in the frame with corner (x, y),
      width [w] and height [h] *)
  Definition print_picture (x y w h : F) (shapes : list (shape F C)) : string :=
    "<svg" ++ attr "xmlns" "http://www.w3.org/2000/svg"
    ++ attr "viewBox" (p_show p x ++ " " ++ p_show p y ++ " " ++ p_show p w ++ " " ++ p_show p h)
    ++ ">" ++ concat "" (map print_shape shapes) ++ "</svg>".
End Print.

(** The points of the plane a value covers *)
Definition covers (v : element_value R) (x y : R) : Prop :=
  match v with
  | VLength _ => False
  | VPoint a => (x, y) = a
  | VLine a b => exists t, (0 <= t <= 1)%R /\
      x = ((1 - t) * fst a + t * fst b)%R /\ y = ((1 - t) * snd a + t * snd b)%R
  | VCircle c r => (Rsqr (x - fst c) + Rsqr (y - snd c) = Rsqr r)%R
  end.
(** The smallest rectangle [[a, c] x [b, d]] around what the shapes cover *)
Definition tight {C} (shapes : list (shape R C)) (a b c d : R) : Prop :=
  let at_ x y := exists sh, In sh shapes /\ covers (sh_value sh) x y in
  (forall x y, at_ x y -> (a <= x <= c /\ b <= y <= d)%R) /\
  (exists y, at_ a y) /\ (exists y, at_ c y) /\ (exists x, at_ x b) /\ (exists x, at_ x d).
