(** Pictures of 2D grids: Color, Palette, QuickPalette, Image, ImagePainter,
    Plotter, SimpleCellPlotter and PPMWriter. Definitions only.

    Sources: misc/color.h, misc/palette.h, misc/quickpalette.h,
    storage/image.h, storage/image.cpp, io/imagepainter.h, io/plotter.h,
    io/simplecellplotter.h, io/ppmwriter.h, all below
    /repo/src/libgeodecomp. Integers are unbounded except for the 32 bit of a
    Color. Coordinates are written with the most significant axis first, i.e.
    [[y; x]]. Bytes are integers from 0 to 255. The file system always succeeds. *)
From Verif Require Import Base RegionSpec RegionModel RegionOpsModel CoordModel PatchModel GridModel AdapterModel.
From Verif Require Import ParamModel.

(** ** Color *)

(** [unsigned rgb] (color.h:29) *)
Definition color := Z.

(** The constructor for integers (color.h:52-57), as well as the one for
    unsigned characters (35-40), whose arguments are below 256. *)
Definition color_ints (r g b : Z) : color := (255 * 2 ^ 24 + r * 2 ^ 16 + g * 2 ^ 8 + b) mod 2 ^ 32.

(** The constructor for characters (color.h:42-50): they're converted to
    unsigned characters. *)
Definition color_chars (r g b : Z) : color := color_ints (r mod 256) (g mod 256) (b mod 256).

(** The default constructor (color.h:31-33), [Color::BLACK], [Color::WHITE] *)
Definition color_default : color := 255 * 2 ^ 24.
Definition black : color := color_ints 0 0 0.
Definition white : color := color_ints 255 255 255.

(** [red], [green], [blue] (color.h:66-79) *)
Definition red (c : color) : Z := (c / 2 ^ 16) mod 256.
Definition green (c : color) : Z := (c / 2 ^ 8) mod 256.
Definition blue (c : color) : Z := c mod 256.

(** ** Palettes *)

(** [int] as VALUE; division rounds towards zero. *)
Definition ints : arith Z := mkArith Z Z.add Z.sub Z.mul Z.quot Z.ltb Z.leb Some (fun z => z).

Section Palettes.
Context {N : Type} (A : arith N).

(** The constructor for numbers which need to be truncated (color.h:59-64);
    for integers it is the one above. *)
Definition color_nums (r g b : N) : option color :=
  match a_trunc A r, a_trunc A g, a_trunc A b with
  | Some r', Some g', Some b' => Some (color_ints r' g' b')
  | _, _, _ => None
  end.

(** [std::map<VALUE, Color>]: sorted by keys. *)
Definition cmap := list (N * color).

Fixpoint map_put (v : N) (c : color) (m : cmap) : cmap :=
  match m with
  | [] => [(v, c)]
  | (k, d) :: m' =>
      if a_lt A v k then (v, c) :: m else if a_lt A k v then (k, d) :: map_put v c m' else (k, c) :: m'
  end.

(** [addColor] (palette.h:24-27), one call after the other, on an initially
    empty Palette. *)
Definition palette_of (calls : list (N * color)) : cmap := fold_left (fun m p => map_put (fst p) (snd p) m) calls [].

(** [upper_bound]: the places before and at the first key greater than [v]. *)
Fixpoint upper_bound (prev : option (N * color)) (v : N) (m : cmap) : option (N * color) * option (N * color) :=
  match m with
  | [] => (prev, None)
  | (k, d) :: m' => if a_lt A v k then (prev, Some (k, d)) else upper_bound (Some (k, d)) v m'
  end.

(** One component of the mixed Color (palette.h:52-53). *)
Definition mix (lo up : Z) (offset1 offset2 delta : N) : N :=
  a_div A (a_add A (a_mul A (a_ofZ A lo) offset2) (a_mul A (a_ofZ A up) offset1)) delta.

(** [operator[]] (palette.h:29-60); [None]: undefined behaviour while truncating. *)
Inductive looked_up := LogicError | Looked (c : option color).

Definition palette_get (m : cmap) (v : N) : looked_up :=
  match upper_bound None v m with
  | (None, None) => LogicError
  | (Some (_, c), None) => Looked (Some c)
  | (None, Some (_, c)) => Looked (Some c)
  | (Some (k1, c1), Some (k2, c2)) =>
      let delta := a_sub A k2 k1 in
      let offset1 := a_sub A v k1 in
      let offset2 := a_sub A delta offset1 in
      Looked (color_nums (mix (red c1) (red c2) offset1 offset2 delta)
                (mix (green c1) (green c2) offset1 offset2 delta)
                (mix (blue c1) (blue c2) offset1 offset2 delta))
  end.

(** QuickPalette: the members and the constructor (quickpalette.h:19-26,
    54-59); VALUE is a floating point type. *)
Record quick := mkQuick { mark0 : N; mark1 : N; mark2 : N; mark3 : N; mark4 : N; q_mult : N }.

Definition quick_make (mn mx : N) : quick :=
  let n k := a_ofZ A k in
  mkQuick mn
    (a_div A (a_add A (a_mul A mn (n 3)) (a_mul A mx (n 1))) (n 4))
    (a_div A (a_add A (a_mul A mn (n 2)) (a_mul A mx (n 2))) (n 4))
    (a_div A (a_add A (a_mul A mn (n 1)) (a_mul A mx (n 3))) (n 4))
    mx
    (a_div A (a_mul A (n 255) (n 4)) (a_sub A mx mn)).

(** [operator[]] (quickpalette.h:28-51) *)
Definition quick_get (q : quick) (v : N) : option color :=
  let n k := a_ofZ A k in
  if a_lt A v (mark0 q) then Some black
  else if a_lt A (mark4 q) v then Some white
  else if a_lt A v (mark1 q) then color_nums (n 0) (a_mul A (a_sub A v (mark0 q)) (q_mult q)) (n 255)
  else if a_lt A v (mark2 q) then color_nums (n 0) (n 255) (a_mul A (a_sub A (mark2 q) v) (q_mult q))
  else if a_lt A v (mark3 q) then color_nums (a_mul A (a_sub A v (mark2 q)) (q_mult q)) (n 255) (n 0)
  else color_nums (n 255) (a_mul A (a_sub A (mark4 q) v) (q_mult q)) (n 0).
End Palettes.

(** ** Image *)

(** Grids of Colors without periodic boundaries (image.h:14, grid.h). *)
Definition flat : topology := [false; false].
Definition image := vgrid color.

(** The constructors (image.h:19-30) *)
Definition image_make (w h : Z) (col : color) : image := grid_make [h; w] col color_default.

Definition img_w (i : image) : Z := match g_dim i with [_; w] => w | _ => 0 end.
Definition img_h (i : image) : Z := match g_dim i with [h; _] => h | _ => 0 end.

Fixpoint each {X S} (f : X -> S -> option S) (l : list X) (s : S) : option S :=
  match l with [] => Some s | x :: l' => obind (f x s) (each f l') end.

(** The coordinates visited by two nested loops, the inner one running along x. *)
Definition scan (sx ex sy ey : Z) : list (Z * Z) := flat_map (fun y => map (fun x => (x, y)) (zrange sx ex)) (zrange sy ey).

(** [fillBox] (image.h:52-70) *)
Definition fill_box (ux uy bw bh : Z) (col : color) (i : image) : option image :=
  each (fun p i' => grid_set flat i' [snd p; fst p] col)
    (scan (Z.max ux 0) (Z.min (ux + bw) (img_w i)) (Z.max uy 0) (Z.min (uy + bh) (img_h i))) i.

(** Results of functions which may throw [std::invalid_argument]; [Undef]:
    undefined behaviour. *)
Inductive drawn := Drawn (i : image) | InvalidArgument | Undef.

(** [ImageHelpers::copy] (image.cpp:9-45). Source and target are different
    objects. *)
Definition in_rect (w h x y : Z) : bool := (0 <=? x) && (x <? w) && (0 <=? y) && (y <? h).

Fixpoint copy_pixels (sx sy : Z) (src : image) (tx ty : Z) (l : list (Z * Z)) (tgt : image) : drawn :=
  match l with
  | [] => Drawn tgt
  | (x, y) :: l' =>
      if negb (in_rect (img_w tgt) (img_h tgt) (tx + x) (ty + y)) then copy_pixels sx sy src tx ty l' tgt
      else if negb (in_rect (img_w src) (img_h src) (sx + x) (sy + y)) then InvalidArgument
      else match grid_get flat src [sy + y; sx + x] with
           | Some c => match grid_set flat tgt [ty + y; tx + x] c with
                       | Some tgt' => copy_pixels sx sy src tx ty l' tgt'
                       | None => Undef
                       end
           | None => Undef
           end
  end.

Definition copy (sx sy : Z) (src : image) (tx ty : Z) (tgt : image) (w h : Z) : drawn :=
  copy_pixels sx sy src tx ty (scan 0 w 0 h) tgt.

(** [slice] (image.cpp:49-63) and [paste] (image.cpp:76-87) *)
Definition slice (i : image) (ux uy w h : Z) : drawn := copy ux uy i 0 0 (image_make w h color_default) w h.
Definition paste (i : image) (ux uy : Z) (src : image) : drawn := copy 0 0 src ux uy i (img_w src) (img_h src).

(** ** Plotter *)

Section Plot.
Context {C : Type} (paint : C -> option color).   (* the Color of a cell: [palette[cell.*member]] (simplecellplotter.h:93, 150-156); None: exceptions and undefined behaviour *)

(** [SimpleCellPlotter::operator()] (simplecellplotter.h:144-162) with an
    ImagePainter (imagepainter.h:20-28) at the given position. *)
Definition plot_cell (cell : C) (px py cw ch : Z) (i : image) : option image :=
  obind (paint cell) (fun col => fill_box (px + 0) (py + 0) cw ch col i).

(** Rounding up of a quotient. The code uses doubles (plotter.h:63-64); as
    numerator and denominator have at most 33 bits, rounding the quotient
    can't reach the next integer. *)
Definition ceil_div (a b : Z) : Z := - ((- a) / b).

Definition view_w (g : gview C) : Z := match b_dim (v_box g) with [_; w] => w | _ => 0 end.
Definition view_h (g : gview C) : Z := match b_dim (v_box g) with [h; _] => h | _ => 0 end.

(** [plotGridInViewport] (plotter.h:55-80): origin and dimensions of the
    viewport in pixels; division of integers rounds towards zero. *)
Definition plot_viewport (cw ch : Z) (g : gview C) (ox oy dx dy : Z) (i : image) : option image :=
  let sx := Z.quot ox cw in
  let sy := Z.quot oy ch in
  let ex := Z.min (ceil_div (ox + dx) cw) (view_w g) in
  let ey := Z.min (ceil_div (oy + dy) ch) (view_h g) in
  each (fun p i' => obind (v_get g [snd p; fst p]) (fun cell => plot_cell cell (fst p * cw - ox) (snd p * ch - oy) cw ch i'))
    (scan sx ex sy ey) i.

(** [plotGrid] (plotter.h:41-49) *)
Definition plot_grid (cw ch : Z) (g : gview C) (i : image) : option image :=
  plot_viewport cw ch g 0 0 (cw * view_w g) (ch * view_h g) i.

(** ** PPMWriter *)

(** [operator<<] for integers: decimal digits as bytes, most significant one
    first. The fuel suffices as it exceeds the number of digits. *)
Fixpoint digits (fuel : nat) (n : Z) : list Z :=
  match fuel with
  | O => []
  | S f => (if n <? 10 then [] else digits f (n / 10)) ++ [48 + n mod 10]
  end.

Definition dec (n : Z) : list Z := (if n <? 0 then [45] else []) ++ digits (S (Z.to_nat (Z.log2 (Z.abs n)))) (Z.abs n).

(** [std::setfill('0') << std::setw(4)] *)
Definition pad4 (l : list Z) : list Z := repeat 48 (4 - length l) ++ l.

(** The name of the file (ppmwriter.h:86-88): prefix, '.', step, ".ppm" *)
Definition ppm_name (prefix : list Z) (step : Z) : list Z := prefix ++ [46] ++ pad4 (dec step) ++ [46; 112; 112; 109].

(** The header (ppmwriter.h:95-96): "P6 ", width, ' ', height, " 255\n" *)
Definition ppm_header (w h : Z) : list Z := [80; 54; 32] ++ dec w ++ [32] ++ dec h ++ [32; 50; 53; 53; 10].

(** The body (ppmwriter.h:99-106) *)
Fixpoint ppm_pixels (i : image) (l : list (Z * Z)) : option (list Z) :=
  match l with
  | [] => Some []
  | (x, y) :: l' =>
      obind (grid_get flat i [y; x]) (fun c => option_map (fun r => red c :: green c :: blue c :: r) (ppm_pixels i l'))
  end.

Definition ppm_file (i : image) : option (list Z) :=
  option_map (app (ppm_header (img_w i) (img_h i))) (ppm_pixels i (scan 0 (img_w i) 0 (img_h i))).

(** [stepFinished] (ppmwriter.h:68-79): the file written, if any. *)
Definition is_step (e : ioevent) : bool := match e with IoStep => true | _ => false end.

Definition ppm_step (cw ch : Z) (prefix : list Z) (period : Z) (g : gview C) (step : Z) (e : ioevent)
  : option (list (list Z * list Z)) :=
  if is_step e && negb (step mod period =? 0) then Some []
  else
    obind (plot_grid cw ch g (image_make (cw * view_w g) (ch * view_h g) color_default)) (fun i =>
    option_map (fun bytes => [(ppm_name prefix step, bytes)]) (ppm_file i)).
End Plot.
