(** Model of image_registration/fft_tools/downsample.py *)
From Coq Require Import ZArith Lia List Reals Lra Bool.
From Verif Require Import Base NDim Py.
Import ListNotations.
Open Scope Z_scope.

(** Python range(n) *)
Definition zrange (n : Z) : list Z := map Z.of_nat (seq 0 (Z.to_nat n)).

(** numpy.nanmean over a list of pixels: mean of the non-NaN ones; NaN (with a warning) if there are none *)
Fixpoint nan_count (l : list num) : Z := match l with [] => 0 | Fin _ :: l' => 1 + nan_count l' | NaN :: l' => nan_count l' end.
Fixpoint nan_sum (l : list num) : R := match l with [] => 0%R | Fin r :: l' => (r + nan_sum l')%R | NaN :: l' => nan_sum l' end.
Definition nanmean (l : list num) : num :=
  if nan_count l =? 0 then NaN else Fin (nan_sum l / IZR (nan_count l))%R.

(** length of a[start::step] for 0 <= start, 0 < step on an axis of length L *)
Definition slen (L start step : Z) : Z := Z.max 0 ((L - start + step - 1) / step).

(** np.concatenate of a list of stacks = stack the arrays along a new first axis and reduce that axis with the
    estimator.  Simplification: an estimator is a function of the list of pixels along the axis. *)
Definition stack_reduce {A B} (est : list A -> B) (l : list (arr A)) : res (arr B) :=
  match l with
  | [] => Raise ValueError                         (* need at least one array to concatenate *)
  | a :: _ =>
    if forallb (fun b => if list_eq_dec Z.eq_dec (shape b) (shape a) then true else false) l
    then Ok (Arr (shape a) (fun i => est (map (fun b => get b i) l)))
    else Raise ValueError
  end.

(** downsample.py:11-28 [downsample], integer factor.  [x % 0] raises ZeroDivisionError; line 24 crops, line 25-27
    takes the strided views (j outer, i inner). *)
Definition downsample {A B} (myarr : arr A) (factor : Z) (est : list A -> B) : res (arr B) :=
  match shape myarr with
  | [ys; xs] =>
    if factor =? 0 then Raise ZeroDivisionError else
    let cy := ys - ys mod factor in
    let cx := xs - xs mod factor in
    stack_reduce est
      (flat_map (fun j => map (fun i =>
          mk2 (slen cy i factor) (slen cx j factor) (fun a b => g2 myarr (i + a * factor) (j + b * factor)))
        (zrange factor)) (zrange factor))
  | _ => Raise ValueError
  end.

(** downsample.py:30-42 [downsample_cube]: the global name [mean] (line 38) does not exist in the module.
    swapaxes with an axis out of range raises numpy's AxisError (a ValueError). *)
Definition downsample_cube {A} (myarr : arr A) (factor ignoredim : Z) : res (arr A) :=
  if (0 <? ignoredim) && (Z.of_nat (ndim myarr) <=? ignoredim) then Raise ValueError else
  match shape myarr with
  | [_; _; _] => if factor =? 0 then Raise ZeroDivisionError else Raise NameError
  | _ => Raise ValueError
  end.

(** downsample.py:44-61 [downsample_1d].  Line 56 reads [xs] before it is assigned; the assert (and only the
    assert) disappears under [python -O].  What is left then works on the first axis of an array of any rank: line 58 crops it to
    at most size - size % factor.  Slices of different lengths cannot be stacked (ValueError, numpy >= 1.24).  For a negative factor
    there are no slices: np.concatenate([[]]) has shape (0,), and the result is the estimator of no samples. *)
Definition downsample_1d {A B} (python_O : bool) (myarr : arr A) (factor : Z) (est : list A -> B) : res (arr B) :=
  if negb python_O then Raise UnboundLocalError else
  match shape myarr with
  | n :: rest =>
    let xs := prodZ (n :: rest) in
    if factor =? 0 then Raise ZeroDivisionError else
    let cx := Z.min n (xs - xs mod factor) in
    if factor <? 0 then Ok (Arr [] (fun _ => est [])) else
    stack_reduce est (map (fun i => Arr (slen cx i factor :: rest)
        (fun k => match k with a :: k' => get myarr ((i + a * factor) :: k') | [] => get myarr [] end)) (zrange factor))
  | [] => if factor =? 0 then Raise ZeroDivisionError else Raise IndexError
  end.

(** replace the component of an index tuple / shape at an axis *)
Fixpoint upd (ax : nat) (v : Z) (l : list Z) : list Z :=
  match l, ax with
  | [], _ => []
  | _ :: t, O => v :: t
  | h :: t, S a => h :: upd a v t
  end.

(** normalisation of a possibly negative axis number against ndim; IndexError from myarr.shape[axis] *)
Definition norm_axis (nd : nat) (axis : Z) : res nat :=
  if (0 <=? axis) && (axis <? Z.of_nat nd) then Ok (Z.to_nat axis)
  else if (axis <? 0) && (- Z.of_nat nd <=? axis) then Ok (Z.to_nat (axis + Z.of_nat nd))
  else Raise IndexError.

(** downsample.py:63-103 [downsample_axis].  [list_index_ok]: numpy < 1.23 accepts a list of slices as an index
    tuple; newer versions raise IndexError (lines 82, 100). *)
Definition downsample_axis {B} (list_index_ok : bool) (myarr : arr num) (factor axis : Z) (est : list num -> B)
    (truncate : bool) : res (arr B) :=
  let! ax := norm_axis (ndim myarr) axis in
  let xs := nth ax (shape myarr) 0 in
  if factor =? 0 then Raise ZeroDivisionError else
  let! crarr :=
    if negb (xs mod factor =? 0) then
      if truncate then
        if list_index_ok
        then Ok (Arr (upd ax (xs - xs mod factor) (shape myarr)) (get myarr))
        else Raise IndexError
      else if factor - xs mod factor <? 0 then Raise ValueError
      else Ok (Arr (upd ax (xs + (factor - xs mod factor)) (shape myarr))
                   (fun i => if nth ax i 0 <? xs then get myarr i else NaN))
    else Ok myarr in
  let view := fun ii => Arr (upd ax (slen (nth ax (shape crarr) 0) ii factor) (shape crarr))
                            (fun i => get crarr (upd ax (ii + nth ax i 0 * factor) i)) in
  if (0 <? factor) && negb list_index_ok then Raise IndexError else
  stack_reduce est (map view (zrange factor)).
