(** Vocabulary of the kernel properties (C60, C61) *)
From Coq Require Import ZArith Lia List Reals Lra Bool.
From Verif Require Import Base NDim Py Spec.
Import ListNotations.
Open Scope R_scope.

(** the pixel that FFT convolution takes as the origin of a kernel: n//2 on each axis *)
Definition fft_origin (sh : list Z) : list Z := map (fun n => (n / 2)%Z) sh.
(** squared distance of pixel i from the real point c *)
Fixpoint dist2 (c : list R) (i : list Z) : R :=
  match c, i with x :: c', k :: i' => (IZR k - x) ^ 2 + dist2 c' i' | _, _ => 0 end.
(** centre of the pixel grid: (n-1)/2 on each axis *)
Definition grid_middle (sh : list Z) : list R := map (fun n => (IZR n - 1) / 2) sh.
(** reflection of pixel i about pixel c: 2c - i *)
Definition reflect (c i : list Z) : list Z := zipw (fun a b => (2 * a - b)%Z) c i.
(** k is symmetric about the pixel c *)
Definition symmetric_about (k : arr R) (c : list Z) : Prop :=
  forall i, inb (shape k) i -> inb (shape k) (reflect c i) -> get k (reflect c i) = get k i.
(** reflection of the whole grid: n-1-i *)
Definition flip (sh i : list Z) : list Z := zipw (fun n k => (n - 1 - k)%Z) sh i.
(** pixel i lies in the w-wide box that starts at n//2 - w//2 on every axis *)
Fixpoint in_centred_box (w : Z) (sh i : list Z) : Prop :=
  match sh, i with
  | n :: sh', k :: i' => (n / 2 - w / 2 <= k < n / 2 - w / 2 + w)%Z /\ in_centred_box w sh' i'
  | _, _ => True
  end.
