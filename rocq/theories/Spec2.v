(** Specification vocabulary for 2-D images (used by the theorems about correlation, chi2 and registration). *)
From Coq Require Import ZArith Lia List Reals Lra Bool.
From Verif Require Import Base NDim Py Spec.
Import ListNotations.
Open Scope R_scope.

(** pixel value with NaN counted as 0 *)
Definition px (a : arr num) (y x : Z) : R := match get a [y; x] with Fin r => r | NaN => 0 end.
(** periodic sample *)
Definition pxw (a : arr num) (ny nx y x : Z) : R := px a (y mod ny) (x mod nx).
(** zero outside the image *)
Definition px0 (a : arr num) (ny nx y x : Z) : R :=
  if Z_le_dec 0 y then if Z_lt_dec y ny then if Z_le_dec 0 x then if Z_lt_dec x nx then px a y x else 0 else 0 else 0 else 0.
(** sum over all pixels of an ny x nx image *)
Definition pixel_sum (ny nx : Z) (f : Z -> Z -> R) : R := sumR ny (fun i => sumR nx (fun j => f i j)).
(** [b] is [a] rolled by (dy, dx) (np.roll) *)
Definition is_roll (a b : arr num) (ny nx dy dx : Z) : Prop :=
  shape a = [ny; nx] /\ shape b = [ny; nx] /\
  forall y x, (0 <= y < ny)%Z -> (0 <= x < nx)%Z -> get b [y; x] = get a [(y - dy) mod ny; (x - dx) mod nx]%Z.

Definition energy2 (a : arr num) (ny nx : Z) : R := pixel_sum ny nx (fun i j => px a i j * px a i j).
(** translation by (s, t) leaves the image unchanged *)
Definition symmetric_under (a : arr num) (ny nx s t : Z) : Prop :=
  forall y x, (0 <= y < ny)%Z -> (0 <= x < nx)%Z -> pxw a ny nx (y + s) (x + t) = px a y x.


(** number of non-NaN pixels *)
Definition valid_count (a : arr num) (ny nx : Z) : R :=
  pixel_sum ny nx (fun i j => match get a [i; j] with Fin _ => 1 | NaN => 0 end).
(** the image a registration function works on: NaN -> 0, optionally after subtracting the mean of the valid pixels *)
Definition prep (zeromean : bool) (a : arr num) (ny nx y x : Z) : R :=
  match get a [y; x] with
  | NaN => 0
  | Fin r => if zeromean then r - pixel_sum ny nx (px a) / valid_count a ny nx else r
  end.
(** chi-squared between [img] and [ref] rolled by (sy, sx), with per-pixel standard deviations [sigma] *)
Definition chi2_of (ny nx : Z) (ref img sigma : Z -> Z -> R) (sy sx : Z) : R :=
  pixel_sum ny nx (fun i j => ((img i j - ref ((i - sy) mod ny)%Z ((j - sx) mod nx)%Z) / sigma i j) ^ 2).

(** an ny x nx image given as a function, Fourier-shifted by (ty, tx), at pixel (i, j) *)
Definition img2 (f : Z -> Z -> R) (y : list Z) : R := match y with [a; b] => f a b | _ => 0 end.
Definition fshift (ny nx : Z) (f : Z -> Z -> R) (ty tx : R) (i j : Z) : R :=
  trig_interpR [ny; nx] (img2 f) [IZR i - ty; IZR j - tx].
(** chi-squared of [img] against [ref] Fourier-shifted by (ty, tx): constant error s *)
Definition chi2c (ny nx : Z) (ref img : Z -> Z -> R) (s : R) (ty tx : R) : R :=
  pixel_sum ny nx (fun i j => ((img i j - fshift ny nx ref ty tx i j) / s) ^ 2).
(** no Fourier shift other than by whole multiples of the shape leaves the image unchanged *)
Definition no_real_symmetry (ny nx : Z) (f : Z -> Z -> R) : Prop :=
  forall ty tx, (forall y x, (0 <= y < ny)%Z -> (0 <= x < nx)%Z -> fshift ny nx f ty tx y x = f y x) ->
    exists k l : Z, ty = IZR k * IZR ny /\ tx = IZR l * IZR nx.
