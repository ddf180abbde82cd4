(** Specification vocabulary: circular cross-correlation of two images *)
From Coq Require Import ZArith List Reals.
From Verif Require Import Base Py Spec2.
Open Scope R_scope.

(** sum over all pixels of [img] times [ref] rolled by (sy, sx) *)
Definition ccf (ny nx : Z) (ref img : Z -> Z -> R) (sy sx : Z) : R :=
  pixel_sum ny nx (fun i j => ref ((i - sy) mod ny)%Z ((j - sx) mod nx)%Z * img i j).
(** no roll of the ny x nx image leaves it unchanged, except by whole multiples of its shape *)
Definition no_symmetry (ny nx : Z) (f : Z -> Z -> R) : Prop :=
  forall s t, (forall y x, (0 <= y < ny)%Z -> (0 <= x < nx)%Z -> f ((y - s) mod ny)%Z ((x - t) mod nx)%Z = f y x) ->
    (s mod ny = 0 /\ t mod nx = 0)%Z.
(** the whole-pixel shift (sy, sx) maximises the cross-correlation, strictly among inequivalent shifts *)
Definition best_roll (ny nx : Z) (f1 f2 : Z -> Z -> R) (sy sx : Z) : Prop :=
  forall s t, ((s - sy) mod ny <> 0 \/ (t - sx) mod nx <> 0)%Z -> ccf ny nx f1 f2 s t < ccf ny nx f1 f2 sy sx.
(** multiply every valid pixel *)
Definition scale_img (k : R) (a : arr num) : arr num := amap (fun x => match x with Fin r => Fin (k * r) | NaN => NaN end) a.
