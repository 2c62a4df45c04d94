(** Model of the arithmetic with which angler/structures.py, simulation.py and source/mode.py count
    grid cells, in IEEE binary64 (python's float) instead of real numbers.  Not modelled: infinities
    and NaN (the numbers here are far below 2^1024) and the sign of zero. *)
From Coq Require Import Reals Lra Lia List ZArith.
From Flocq Require Import Core.
From Verif Require Import Base MCore MSim MStruct.
Local Open Scope R_scope.

(** a finite binary64 number: m * 2^e with |m| < 2^53 and e >= -1074 *)
Definition b64 (x : R) : Prop := exists m e : Z, x = IZR m * powerRZ 2 e /\ (Z.abs m < 2 ^ 53)%Z /\ (-1074 <= e)%Z.
(** the result of a python operation on floats, and of reading a decimal literal: the exact result
    rounded to the nearest binary64 number, ties to even *)
Definition fl (x : R) : R := round radix2 (FLT_exp (-1074) 53) ZnearestE x.

(** structures.py:54-55, 93-94, 125-126, 165-166: int((2*l + L)/dl), also int((H + 2*spc)/dl) *)
Definition cells_f (l L dl : R) : Z := py_int (fl (fl (fl (2 * l) + L) / dl)).
(** structures.py:54-55, 93-94, 125-126: the shape of three_port, two_port and N_port *)
Definition port_shape_f (L H l spc dl : R) (p0 p1 : Z) : Z * Z := (2 * p0 + cells_f l L dl, 2 * p1 + cells_f spc H dl)%Z.
(** structures.py:165-166: the shape of ortho_port *)
Definition ortho_shape_f (L H l dl : R) (p0 p1 : Z) : Z * Z := (2 * p0 + cells_f l L dl, 2 * p1 + cells_f l H dl)%Z.
(** structures.py:199-200: the shape of accelerator *)
Definition accelerator_shape_f (beta gap lambda0 L spc dl : R) (p0 : Z) : Z * Z :=
  (2 * p0 + py_int (fl (fl (fl (fl (4 * spc) + fl (2 * L)) + gap) / dl)), py_int (fl (fl (beta * lambda0) / dl)))%Z.
(** structures.py:229-233: the shape of accelerator_multi *)
Definition accelerator_multi_shape_f (beta gap lambda0 L spc : R) (n : Z) (dl : R) (p0 : Z) : Z * Z :=
  (2 * p0 + py_int (fl (fl (fl (fl (4 * spc) + fl (fl (2 * L) * IZR n)) + fl (gap * IZR n)) / dl)), py_int (fl (fl (beta * lambda0) / dl)))%Z.
(** structures.py:62, 131: wg_width_px = int(w/dl) *)
Definition width_px_f (w dl : R) : Z := py_int (fl (w / dl)).
(** structures.py:56, 95, 127, 167, 201, 234: int(Nx/2) *)
Definition half_f (N : Z) : Z := py_int (fl (IZR N / 2)).
(** simulation.py:255-257, source/mode.py:67-69: int(center - width/2) and int(center + width/2) *)
Definition window_f (center width : Z) : Z * Z :=
  (py_int (fl (IZR center - fl (IZR width / 2))), py_int (fl (IZR center + fl (IZR width / 2)))).
