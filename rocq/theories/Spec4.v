(** Specification vocabulary: sub-pixel cross-correlation *)
From Coq Require Import ZArith List Reals.
From Coquelicot Require Import Complex.
From Verif Require Import Base NDim Num Py Spec Spec2 Spec3.
Import ListNotations.
Open Scope R_scope.

(** the image Fourier-shifted by (ty, tx) (trigonometric interpolant, complex in general), at pixel (i, j) *)
Definition cshift (ny nx : Z) (f : Z -> Z -> R) (ty tx : R) (i j : Z) : C :=
  trig_interp [ny; nx] (fun y => RtoC (img2 f y)) [IZR i - ty; IZR j - tx].
(** cross-correlation at a real shift: sum over the pixels of [img] times [ref] Fourier-shifted by (ty, tx) *)
Definition rcc (ny nx : Z) (ref img : Z -> Z -> R) (ty tx : R) : C :=
  sumC ny (fun i => sumC nx (fun j => Cmult (cshift ny nx ref ty tx i j) (RtoC (img i j)))).
(** shift difference t is a whole number of periods along an axis of n pixels (an axis of one pixel carries no shift) *)
Definition whole_period (n : Z) (t : R) : Prop := n = 1%Z \/ exists k : Z, t = IZR k * IZR n.
(** the only Fourier shifts that reproduce the image up to a unit factor are whole periods *)
Definition no_phase_symmetry (ny nx : Z) (f : Z -> Z -> R) : Prop :=
  forall ty tx (c : C), Cmod c = 1 ->
    (forall y x, (0 <= y < ny)%Z -> (0 <= x < nx)%Z -> cshift ny nx f ty tx y x = Cmult c (RtoC (f y x))) ->
    whole_period ny ty /\ whole_period nx tx.
(** no roll changes the sign of the image, except by whole multiples of its shape *)
Definition no_antisymmetry (ny nx : Z) (f : Z -> Z -> R) : Prop :=
  forall s t, (forall y x, (0 <= y < ny)%Z -> (0 <= x < nx)%Z -> f ((y - s) mod ny)%Z ((x - t) mod nx)%Z = - f y x) ->
    (s mod ny = 0 /\ t mod nx = 0)%Z.
(** d reduced to the centred range -(n//2) .. (n-1)//2 *)
Definition centred (n d : Z) : Z := ((d + n / 2) mod n - n / 2)%Z.

(** shifts (in grid steps) left in the search by maxoff: no limit, or -M < s <= M *)
Definition within (mo : option Z) (s : Z) : Prop := match mo with None => True | Some M => (- M < s <= M)%Z end.
Definition mo_ok (mo : option Z) : Prop := match mo with None => True | Some M => (1 <= M)%Z end.
(** bounds maxoff imposes on a shift of a grid steps along an axis of n steps *)
Definition bounded (mo : option Z) (n a : Z) : Prop :=
  match mo with None => True | Some M => (- M <= a <= M)%Z /\ (2 * M <> n -> - M < a)%Z end.
(** the points a/u of the fine grid around the coarse estimate c: ceil(3u/2) consecutive integers a around round(c u) *)
Definition fine_window (u c : R) (a : Z) : Prop :=
  (- ((ceilR (u * (3 / 2)) - 1) / 2) <= a - roundR (c * u) <= ceilR (u * (3 / 2)) / 2)%Z.
