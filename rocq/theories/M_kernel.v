(** Model of image_registration/fft_tools/smooth_tools.py *)
From Coq Require Import ZArith Lia List Reals Lra Bool.
From Coquelicot Require Import Complex.
From Verif Require Import Base NDim DFT Kernel Num Py M_downsample M_xcorr M_register.
Import ListNotations.
Open Scope R_scope.

(** a Python number: int or float *)
Inductive pnum := PInt (z : Z) | PFloat (r : R).
Definition pval (w : pnum) : R := match w with PInt z => IZR z | PFloat r => r end.

(** the kerneltype string; any other string is KOther *)
Inductive ktype := KGaussian | KBoxcar | KTophat | KAiry | KTrapezoid | KOther.
(** normalize_kernel: True, or a function of the kernel array (np.sum, np.max, ...) *)
Inductive normfn := NTrue | NFun (f : arr R -> R).
(** np.sum, np.max on an N-D array *)
Definition np_sum (a : arr R) : R := sumNR (shape a) (get a).
Definition max1 (n : Z) (g : Z -> R) : R := fold_left Rmax (map g (zrange n)) (g 0%Z).
Fixpoint maxN (sh : list Z) (f : list Z -> R) : R :=
  match sh with [] => f [] | n :: sh' => max1 n (fun k => maxN sh' (fun l => f (k :: l))) end.
(** kernel /= s: 0/0 is NaN, x/0 infinite *)
Definition divide (k : arr R) (s : R) : arr xnum := amap (fun x => xdiv (XF x) (XF s)) k.

(** np.sum([(x - centre(x))**2 for x in np.indices(kernelshape)], axis=0) at one pixel; [centre] as a function of the axis length,
    for which x.max() = n - 1 *)
Fixpoint radius2 (centre : Z -> R) (sh i : list Z) : R :=
  match sh, i with n :: sh', k :: i' => (IZR k - centre n) ^ 2 + radius2 centre sh' i' | _, _ => 0 end.
(** smooth_tools.py:151: (x.max()+1)//2 ;  :165, :177, :184: x.max()/2. *)
Definition fft_centre (n : Z) : R := IZR ((n - 1 + 1) / 2).
Definition mid_centre (n : Z) : R := IZR (n - 1) / 2.

(** np.indices/np.zeros on the shape: a negative length raises ValueError; x.max() on a zero length too *)
Definition shape_check (zero_ok : bool) (sh : list Z) : res unit :=
  if existsb (fun n => if zero_ok then (n <? 0)%Z else (n <=? 0)%Z) sh then Raise ValueError else Ok tt.

(** smooth_tools.py:155-163: in every dimension the slice [center - w//2 : center + (w+1)//2] with center = n - (n+1)//2 *)
Fixpoint in_box (w : Z) (sh i : list Z) : bool :=
  match sh, i with
  | n :: sh', k :: i' =>
      let center := (n - (n + 1) / 2)%Z in
      in_slice n (center - w / 2)%Z (center + (w + 1) / 2)%Z k && in_box w sh' i'
  | _, _ => true
  end.

(** smooth_tools.py:106-193 [make_kernel]; the empty shape is not modelled.
    [list_index_ok]: a list of slices is accepted as an index (numpy < 1.23), otherwise line 161 raises IndexError.
    A gaussian of width 0 divides 0 by 0 at its centre: the kernel and its normalisation are NaN. *)
Definition make_kernel (list_index_ok has_scipy : bool) (kernelshape : list Z) (kernelwidth : pnum) (kerneltype : ktype)
    (trapslope : option R) (normalize_kernel : normfn) (force_odd : bool) : res (arr xnum) :=
  let kernelshape := if force_odd then map (fun n => if (n mod 2 =? 0)%Z then (n - 1)%Z else n) kernelshape else kernelshape in
  let norm := match normalize_kernel with NTrue => np_sum | NFun f => f end in
  let w := pval kernelwidth in
  let rr := fun i => sqrt (radius2 mid_centre kernelshape i) in
  match kernelshape with
  | [] => Raise Unmodelled
  | _ =>
    match kerneltype with
    | KGaussian =>
      let! _ := shape_check false kernelshape in
      if Req_EM_T w 0 then Ok (Arr kernelshape (fun _ => XNaN)) else
      let kernel := Arr kernelshape (fun i => exp (- (sqrt (radius2 fft_centre kernelshape i)) ^ 2 / (2 * w ^ 2))) in
      Ok (divide kernel (norm kernel))
    | KBoxcar =>
      let! _ := shape_check true kernelshape in
      if negb list_index_ok then Raise IndexError else
      match kernelwidth with
      | PFloat _ => Raise TypeError                                  (* float slice bounds *)
      | PInt w =>
        let kernel := Arr kernelshape (fun i => if in_box w kernelshape i then 1 else 0) in
        Ok (divide kernel (norm kernel))
      end
    | KTophat =>
      let! _ := shape_check false kernelshape in
      let kernel := Arr kernelshape (fun i => if Rlt_dec (rr i) w then 1 else 0) in
      Ok (divide kernel (norm kernel))
    | KAiry =>
      if negb has_scipy then Raise ImportError else
      let! _ := shape_check false kernelshape in
      Raise NameError                                                (* j1 is not defined *)
    | KTrapezoid =>
      let! _ := shape_check false kernelshape in
      match trapslope with
      | None => Raise ValueError
      | Some slope =>
        if Req_EM_T slope 0 then Raise ValueError else
        let rmax := maxN kernelshape rr in
        let zz := Arr kernelshape (fun i =>
          let z := rmax - rr i * slope in
          let z := if Rlt_dec z 0 then 0 else z in
          if Rlt_dec (rr i) w then 1 else z) in
        Ok (divide zz (np_sum zz))
      end
    | KOther => Raise UnboundLocalError
    end
  end.

(** smooth_tools.py:7-103 [smooth] as far as any call gets: before the convolution the code calls kwargs.has_key, which
    dictionaries of Python 3 do not have (AttributeError); the lines after it are not reached and not modelled.
    [nwidths]: None is 'max'; the image enters through its shape only. *)
Definition smooth {A : Type} (list_index_ok has_scipy : bool) (image_shape : list Z) (kernelwidth : pnum) (kerneltype : ktype)
    (trapslope : option R) (nwidths : option pnum) (min_nwidths : R) (normalize_kernel : normfn) : res A :=
  match image_shape with
  | [] => Raise IndexError
  | s0 :: rest =>
    let! narrow := (if Rlt_dec (IZR s0) (pval kernelwidth * min_nwidths) then Ok true
                    else match rest with
                         | [] => Raise IndexError
                         | s1 :: _ => Ok (if Rlt_dec (IZR s1) (pval kernelwidth * min_nwidths) then true else false)
                         end) in
    let nwidths := if narrow : bool then Some (PFloat min_nwidths) else nwidths in
    match nwidths with
    | Some _ => Raise TypeError                                      (* np.indices of the float that np.ceil returns *)
    | None =>
      match image_shape with
      | [sy; sx] =>
        let even := fun n => (n + n mod 2)%Z in
        let! _ := make_kernel list_index_ok has_scipy [even sy; even sx] kernelwidth kerneltype trapslope normalize_kernel false in
        Raise AttributeError
      | _ => Raise ValueError                                        (* szY,szX = image.shape *)
      end
    end
  end.
