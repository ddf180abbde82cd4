(** Vocabulary of the iterative-zoom properties (C57-C59, C74).  From the model only the types [minmax] and [view]
    (list in C order of (coordinates, value)) are used. *)
From Coq Require Import ZArith Lia List Reals Lra Bool.
From Coquelicot Require Import Complex.
From Verif Require Import Base NDim Py Arg Spec M_iterzoom.
Import ListNotations.
Open Scope R_scope.

(** a is at least as good as b:  sgn * a <= sgn * b *)
Definition sgn (mm : minmax) : R := match mm with MMin => 1 | MMax => -1 end.
(** p is the first extremal element of v *)
Definition first_best (mm : minmax) (v : view) (p : list R * R) : Prop :=
  exists l1 l2, v = l1 ++ p :: l2 /\ (forall q, In q l1 -> sgn mm * snd p < sgn mm * snd q) /\ (forall q, In q l2 -> sgn mm * snd p <= sgn mm * snd q).
(** not constant: some difference from the extreme value is non-zero *)
Definition varied (v : view) : Prop := exists p q, In p v /\ In q v /\ snd p <> snd q.
(** the smallest non-zero difference from the extreme value is d *)
Definition is_gap (mm : minmax) (v : view) (d : R) : Prop :=
  exists p q, In p v /\ (forall r, In r v -> sgn mm * snd p <= sgn mm * snd r) /\ In q v /\ 0 < d /\ d = Rabs (snd q - snd p) /\
    forall r, In r v -> snd r <> snd p -> d <= Rabs (snd r - snd p).
(** zooming stops at v *)
Definition stops (mm : minmax) (mindiff : R) (v : view) : Prop := ~ varied v \/ exists d, is_gap mm v d /\ d <= mindiff.


(** (y,x) is the first pixel, in C order, at which f is extremal *)
Definition best_pixel (mm : minmax) (ny nx : Z) (f : Z -> Z -> R) (y x : Z) : Prop :=
  is_argmin2 ny nx (fun i j => sgn mm * f i j) (y, x).
(** p is the first index at which f is extremal *)
Definition best_index (mm : minmax) (n : Z) (f : Z -> R) (p : Z) : Prop :=
  (0 <= p < n)%Z /\ (forall i, (0 <= i < n)%Z -> sgn mm * f p <= sgn mm * f i) /\ (forall i, (0 <= i < p)%Z -> sgn mm * f p < sgn mm * f i).

(** the samples of an image with their pixel coordinates *)
Definition pixel_view (ny nx : Z) (f : Z -> Z -> R) : view :=
  map (fun p => ([IZR (fst p); IZR (snd p)], f (fst p) (snd p))) (pixels ny nx).
Definition pixel_view1 (n : Z) (f : Z -> R) : view := map (fun i => ([IZR i], f i)) (M_downsample.zrange n).
(** coordinate of sample j of m samples with spacing 1/u centred on c *)
Definition sample_at (c u : R) (m j : Z) : R := c + (IZR j - (IZR m - 1) / 2) / u.
(** my x mx samples of the trigonometric interpolant of f around (cy,cx) with spacing 1/u *)
Definition zoomed_view (ny nx : Z) (f : list Z -> R) (my mx : Z) (cy cx u : R) : view :=
  map (fun p => let c := [sample_at cy u my (fst p); sample_at cx u mx (snd p)] in (c, trig_interpR [ny; nx] f c)) (pixels my mx).
Definition zoomed_view1 (n : Z) (f : list Z -> R) (m : Z) (c u : R) : view :=
  map (fun j => let c := [sample_at c u m j] in (c, trig_interpR [n] f c)) (M_downsample.zrange m).
