(** Independent vocabulary used by the property statements.  Nothing here refers to the model files. *)
From Coq Require Import ZArith Lia List Reals Lra Bool.
From Coquelicot Require Import Complex.
From Verif Require Import Base NDim Py.
Import ListNotations.
Open Scope R_scope.

(** index of the pixel that a cyclic roll by [d] moves to [x]:  (x - d) mod shape *)
Definition roll_src (sh d x : list Z) : list Z := modl sh (subl x d).

(** np.roll(a, d) *)
Definition roll {A} (a : arr A) (d : list Z) : arr A :=
  Arr (shape a) (fun x => get a (roll_src (shape a) d x)).

(** Periodic sinc (Dirichlet) kernel with the n integer frequencies -n//2 .. (n-1)//2 :
    (1/n) sum_m exp(2 pi i m t / n) *)
Definition dirichlet (n : Z) (t : R) : C :=
  Cmult (RtoC (/ IZR n)) (sumC n (fun j => cis (2 * PI * (IZR (j - n / 2) * t / IZR n)))).

(** separable N-D kernel at displacement p - y *)
Fixpoint dirichletN (sh : list Z) (p : list R) (y : list Z) : C :=
  match sh, p, y with
  | n :: sh', t :: p', j :: y' => Cmult (dirichlet n (t - IZR j)) (dirichletN sh' p' y')
  | _, _, _ => RtoC 1
  end.

(** trigonometric interpolant of the samples [a] (periodic with the shape) at the real coordinates [p] *)
Definition trig_interp (sh : list Z) (a : list Z -> C) (p : list R) : C :=
  sumNC sh (fun y => Cmult (a y) (dirichletN sh p y)).

(** its real part for real samples: the real trigonometric interpolant *)
Definition trig_interpR (sh : list Z) (a : list Z -> R) (p : list R) : R :=
  sumNR sh (fun y => a y * Re (dirichletN sh p y)).

Definition total (a : arr R) : R := sumNR (shape a) (get a).
Definition energy (a : arr R) : R := sumNR (shape a) (fun i => (get a i) ^ 2).
Definition energyC (a : arr C) : R := sumNR (shape a) (fun i => Cmod (get a i) ^ 2).

(** real coordinates shifted: x - d *)
Definition coord_minus (x : list Z) (d : list R) : list R := zipw (fun i t => IZR i - t) x d.

(** results of two calls are observably the same: same exception, or same dtype, shape and elements *)
Definition anyeq (a b : anyarr) : Prop :=
  match a, b with
  | RealArr x, RealArr y => aeq x y
  | CplxArr x, CplxArr y => aeq x y
  | _, _ => False
  end.
Definition same_result (r s : res anyarr) : Prop :=
  match r, s with
  | Ok a, Ok b => anyeq a b
  | Raise e, Raise f => e = f
  | _, _ => False
  end.
