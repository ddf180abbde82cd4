(** Double-precision arithmetic and the Fourier transforms computed with it.  numpy.fft and BLAS are external code; what is
    written down here is how such libraries compute: every real operation rounds to the nearest number of 53 bits (Flocq's
    FLX format: no overflow or underflow), sums of products are evaluated in any order, with or without fused
    multiply-add, and transforms are mixed-radix Cooley-Tukey transforms, axis by axis, with tabulated twiddle factors.
    Used for fast_ffts.py:35-53 (numpy.fft.fftn, ifftn), scale.py:60-65, 105-114 and upsample.py:45-63 (np.dot, np.exp). *)
From Coq Require Import ZArith List Reals Permutation.
From Coquelicot Require Import Complex.
From Flocq Require Import Core.
From Verif Require Import Base NDim DFT Py M_rounding M_rounding2.
Import ListNotations.
Open Scope R_scope.

(** IEEE round to nearest, ties to even, 53 bits *)
Definition rnd64 (x : R) : R := round radix2 (FLX_exp 53) ZnearestE x.
(** unit roundoff 2^-53 *)
Definition u64 : R := / 2 * bpow radix2 (-53 + 1).

(** [fl_dot l s]: s is a computed value of the sum of the products x*y over the pairs of l.  A product by 0, 1 or -1 is exact. *)
Inductive fl_dot : list (R * R) -> R -> Prop :=
| fl_mul x y : fl_dot [(x, y)] (rnd64 (x * y))
| fl_exact x y : x = 0 \/ x = 1 \/ x = -1 -> fl_dot [(x, y)] (x * y)
| fl_add l l1 l2 s1 s2 : Permutation l (l1 ++ l2) -> fl_dot l1 s1 -> fl_dot l2 s2 -> fl_dot l (rnd64 (s1 + s2))
| fl_fma l l1 x y s : Permutation l ((x, y) :: l1) -> fl_dot l1 s -> fl_dot l (rnd64 (x * y + s)).

(** the same for sums of complex products: the real part is a sum of 2n real products, and so is the imaginary part *)
Definition re_pairs (l : list (C * C)) : list (R * R) := flat_map (fun p => [(Re (fst p), Re (snd p)); (- Im (fst p), Im (snd p))]) l.
Definition im_pairs (l : list (C * C)) : list (R * R) := flat_map (fun p => [(Re (fst p), Im (snd p)); (Im (fst p), Re (snd p))]) l.
Definition fl_cdot (l : list (C * C)) (z : C) : Prop := fl_dot (re_pairs l) (Re z) /\ fl_dot (im_pairs l) (Im z).

Definition zrange (n : Z) : list Z := map Z.of_nat (seq 0 (Z.to_nat n)).

(** [fft1 q sg ps x X]: X is a computed transform of the p1*p2*... values x with the radices ps = p1, p2, ...: the transform is the
    sum over r < p1 of a twiddle factor times the transform of the values at r, r + p1, r + 2 p1, ...  [sg] = -1 is the forward
    direction, +1 the backward one (without normalisation); twiddle factors are off by at most (1+u)^q - 1. *)
Fixpoint fft1 (q : nat) (sg : R) (ps : list Z) (x X : Z -> C) : Prop :=
  match ps with
  | [] => forall k, (0 <= k < 1)%Z -> X k = x 0%Z
  | p :: qs =>
    exists Y : Z -> Z -> C,
      (forall r, (0 <= r < p)%Z -> fft1 q sg qs (fun m => x (r + p * m)%Z) (Y r)) /\
      (forall k, (0 <= k < p * prodZ qs)%Z -> exists W : Z -> C,
         (forall r, (0 <= r < p)%Z -> Cmod (Cminus (W r) (cis (sg * (2 * PI * (IZR k * IZR r / IZR (p * prodZ qs)))))) <= (1 + u64) ^ q - 1) /\
         fl_cdot (map (fun r => (W r, Y r (k mod prodZ qs)%Z)) (zrange p)) (X k))
  end.
(** N-dimensional transform: last axis first, as in numpy; one list of radices per axis *)
Fixpoint fftN (q : nat) (sg : R) (pss : list (list Z)) (a A : list Z -> C) : Prop :=
  match pss with
  | [] => A [] = a []
  | ps :: pss' =>
    exists Y : Z -> list Z -> C,
      (forall i, (0 <= i < prodZ ps)%Z -> fftN q sg pss' (fun l => a (i :: l)) (Y i)) /\
      (forall l, inb (map prodZ pss') l -> fft1 q sg ps (fun i => Y i l) (fun k => A (k :: l)))
  end.
(** number of roundings one output value can have passed through *)
Definition roundings1 (q : nat) (ps : list Z) : nat := fold_right (fun p n => (4 * Z.to_nat p + q + n)%nat) 0%nat ps.
Definition roundingsN (q : nat) (pss : list (list Z)) : nat := fold_right (fun ps n => (roundings1 q ps + n)%nat) 0%nat pss.

(** normalisation of the inverse transform: times the rounded 1/N *)
Definition scaled (n : Z) (z z' : C) : Prop :=
  Re z' = rnd64 (rnd64 (/ IZR n) * Re z) /\ Im z' = rnd64 (rnd64 (/ IZR n) * Im z).
Definition computed_fft (q : nat) (pss : list (list Z)) (a A : arr C) : Prop := shape A = shape a /\ fftN q (-1) pss (get a) (get A).
Definition computed_ifft (q : nat) (pss : list (list Z)) (a A : arr C) : Prop :=
  shape A = shape a /\ exists S, fftN q 1 pss (get a) S /\ forall x, inb (shape a) x -> scaled (prodZ (shape a)) (S x) (get A x).

(** arithmetic of M_rounding.v done in double precision with the radices pss *)
Definition double_arith (q : nat) (pss : list (list Z)) (A : arith) : Prop :=
  (forall a, shape a = map prodZ pss -> computed_fft q pss a (ar_fft A a)) /\
  (forall a, shape a = map prodZ pss -> computed_ifft q pss a (ar_ifft A a)) /\
  (forall z w, fl_cdot [(z, w)] (ar_mul A z w)).
(** arithmetic of M_rounding2.v: the phase passes through at most 5 roundings before its sine and cosine are taken, which
    are correctly rounded *)
Definition double_zarith (q : nat) (pss : list (list Z)) (B : zarith) : Prop :=
  (forall a, shape a = map prodZ pss -> computed_ifft q pss a (za_ifft B a)) /\
  (forall t, exists t', Rabs (t' - t) <= ((1 + u64) ^ 5 - 1) * Rabs t /\ za_cis B t = (rnd64 (cos t'), rnd64 (sin t'))) /\
  (forall n a b, (0 < n)%Z -> fl_cdot (map (fun k => (a k, b k)) (zrange n)) (za_dot B n a b)) /\
  (forall n a b, (n <= 0)%Z -> za_dot B n a b = RtoC 0).
