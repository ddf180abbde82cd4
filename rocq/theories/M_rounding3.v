(** chi2n_map, chi2_shift and register_images with every operation on pixel values inexact (continues M_rounding and
    M_rounding2, where only transforms, exponentials and dot products were): sums, products, quotients and differences of
    pixels are rounded too.  The bodies repeat M_chi2 and M_register line by line; the [.._exact] lemmas say that with exact
    operations they are the functions of M_rounding and M_rounding2.
    Simplification: pixel coordinates and comparisons are exact. *)
From Coq Require Import ZArith Lia List Reals Lra Bool.
From Coquelicot Require Import Complex.
From Verif Require Import Base NDim DFT Kernel Num Py M_fast_ffts M_shift M_scale M_zoom M_upsample M_convolve M_correlate Arg M_chi2 M_xcorr M_register
  M_rounding M_rounding2.
Import ListNotations.
Open Scope R_scope.

(** [sa_rd]: rounding of the result of one operation; [sa_sum]: ndarray.sum() of the listed values *)
Record sarith := SArith { sa_rd : R -> R; sa_sum : list R -> R }.
Definition exact_sarith : sarith := SArith (fun x => x) (fold_right Rplus 0).

(** all index tuples of a shape, in C order *)
Fixpoint all_indices (sh : list Z) : list (list Z) :=
  match sh with
  | [] => [[]]
  | n :: sh' => flat_map (fun i => map (cons (Z.of_nat i)) (all_indices sh')) (seq 0 (Z.to_nat n))
  end.
Definition values (sh : list Z) (f : list Z -> R) : list R := map f (all_indices sh).
(** im[im==im] *)
Definition valid_values (a : arr num) : list R := flat_map (fun i => match get a i with Fin r => [r] | NaN => [] end) (all_indices (shape a)).

(** chi2_shifts.py:477-479, register_images.py:53-55 (zeromean) *)
Definition valid_mean_rd (S : sarith) (a : arr num) : num :=
  match valid_values a with
  | [] => NaN
  | l => Fin (sa_rd S (sa_sum S l / INR (length l)))
  end.
Definition num_sub_rd (S : sarith) (x y : num) : num := match x, y with Fin a, Fin b => Fin (sa_rd S (a - b)) | _, _ => NaN end.
Definition zero_mean_rd (S : sarith) (zeromean : bool) (a : arr num) : arr num :=
  if zeromean then (let m := valid_mean_rd S a in amap (fun x => num_sub_rd S x m) a) else a.

(** chi2_shifts.py:495-520, the part of [chi2n_map] after the error map was prepared: [g1], [g2] the images, [er] the errors,
    [t3] the third term *)
Definition chi2_finish_rd (A : arith) (S : sarith) (gb : Z) (sh : list Z) (b : boundary) (return_all reduced allow_huge : bool)
    (g1 g2 er : list Z -> R) (t3 : term3t) : res chi2res :=
  let rd := sa_rd S in
  let term1 := sa_sum S (values sh (fun i => rd (rd ((g2 i) ^ 2) / rd ((er i) ^ 2)))) in
  let! cc := correlate2d_with A gb (fin_arr sh g1) (fin_arr sh (fun i => rd (g2 i / rd ((er i) ^ 2)))) b allow_huge in
  let term2 := amap (fun x => rd ((-2) * x)) cc in
  let chi2 := Arr sh (fun i => rd (rd (term1 + get term2 i) + match t3 with T3scalar r => r | T3array a => get a i end)) in
  let! chi2 := if reduced
               then (if (prodZ sh =? 2)%Z then Raise Unmodelled else Ok (amap (fun x => rd (x / (IZR (prodZ sh) - 2))) chi2))
               else Ok chi2 in
  Ok (if return_all then Chi2All chi2 term1 term2 t3 else Chi2Only chi2).

(** chi2_shifts.py:434-520 [chi2n_map] *)
Definition chi2n_map_rd (A : arith) (S : sarith) (gb : Z) (im1 im2 : arr num) (err : errarg) (b : boundary)
    (zeromean return_all reduced allow_huge : bool) : res chi2res :=
  if negb (if list_eq_dec Z.eq_dec (shape im1) (shape im2) then true else false) then Raise ValueError else
  let sh := shape im1 in
  let rd := sa_rd S in
  let a1 := zero_mean_rd S zeromean im1 in
  let a2 := zero_mean_rd S zeromean im2 in
  let f1 := fun i => nan0 (get a1 i) in
  let f2 := fun i => nan0 (get a2 i) in
  let finish := chi2_finish_rd A S gb sh b return_all reduced allow_huge in
  match err with
  | ErrArr er =>
    if negb (if list_eq_dec Z.eq_dec (shape er) sh then true else false) then Raise IndexError else
    let bad := fun i => if Req_EM_T (nan0 (get er i)) 0 then true else false in
    let g2 := fun i => if bad i then 0 else f2 i in
    let g1 := fun i => if bad i then 0 else f1 i in
    let er' := fun i => if bad i then 1 else nan0 (get er i) in
    let! term3 := correlate2d_with A gb (fin_arr sh (fun i => rd ((g1 i) ^ 2))) (fin_arr sh (fun i => rd (1 / rd ((er' i) ^ 2)))) b allow_huge in
    finish g1 g2 er' (T3array term3)
  | ErrScalar s =>
    if Req_EM_T s 0 then Raise Unmodelled else
    finish f1 f2 (fun _ => s) (T3scalar (sa_sum S (values sh (fun i => rd (rd ((f1 i) ^ 2) / rd (s ^ 2))))))
  | ErrNone => finish f1 f2 (fun _ => 1) (T3scalar (sa_sum S (values sh (fun i => rd (rd ((f1 i) ^ 2) / rd (1 ^ 2))))))
  end.

(** chi2_shifts.py:13-252 [chi2_shift] *)
Definition chi2_shift_rd (A : arith) (S : sarith) (B : zarith) (e : env) (im1 im2 : arr num) (err : errarg) (upsample_factor : usarg) (b : boundary)
    (zeromean : bool) (nfitted : R) (verbose return_error return_chi2array : bool)
    (max_auto_size : Z) (max_nsig : R) (allow_huge : bool) : res (list retval) :=
  let! r := chi2n_map_rd A S (e_gb e) im1 im2 err b zeromean true false allow_huge in
  chi2_shift_tail_with B e (shape im1) r upsample_factor nfitted verbose return_error return_chi2array max_auto_size max_nsig.

(** register_images.py:9-72 [register_images] with usfac = 1 and return_registered = False, so of [dftregistration] lines
    135-167 and 266-269.  [A]: the transforms register_images uses, [A']: those of dftregistration; the moduli are rounded. *)
Definition register_images_rd (A A' : arith) (S : sarith) (im1 im2 : arr num) (return_error zeromean : bool) (maxoff : option Z) : res (list regval) :=
  if negb (if list_eq_dec Z.eq_dec (shape im1) (shape im2) then true else false) then Raise ValueError else
  let sh := shape im1 in
  let a1 := zero_mean_rd S zeromean im1 in
  let a2 := zero_mean_rd S zeromean im2 in
  let! _ := check_fft sh in
  let im1fft := ar_fft A (Arr sh (fun i => RtoC (nan0 (get a1 i)))) in
  let im2fft := ar_fft A (Arr sh (fun i => RtoC (nan0 (get a2 i)))) in
  match shape im1fft with
  | [m; n] =>
    let cc := limit_cc m n maxoff (g2 (ar_ifft A' (mk2 m n (fun i j => ar_mul A' (g2 im1fft i j) (Cconj (g2 im2fft i j)))))) in
    let '(rloc, cloc) := argmax2 m n (fun i j => sa_rd S (Cmod (cc i j))) in
    Ok ([RgNum (- IZR (unwrap n cloc)); RgNum (- IZR (unwrap m rloc))] ++ (if return_error then [RgNum (1 / 1); RgNum (1 / 1)] else []))
  | _ => Raise ValueError
  end.

Lemma fold_app (l l' : list R) : fold_right Rplus 0 (l ++ l') = fold_right Rplus 0 l + fold_right Rplus 0 l'.
Proof. induction l; cbn; [ring|]. rewrite IHl. ring. Qed.
Lemma fold_indices sh (f : list Z -> list R) : fold_right Rplus 0 (flat_map f (all_indices sh)) = sumNR sh (fun i => fold_right Rplus 0 (f i)).
Proof.
  revert f. induction sh as [|n sh IH]; intros f; cbn [all_indices flat_map].
  - rewrite app_nil_r. reflexivity.
  - change (sumNR (n :: sh) (fun i => fold_right Rplus 0 (f i))) with (sumR n (fun k => sumNR sh (fun i => fold_right Rplus 0 (f (k :: i))))).
    unfold sumR, sumG. induction (Z.to_nat n) as [|m IHm]; [reflexivity|].
    rewrite seq_S, flat_map_app, flat_map_app, fold_app, IHm. cbn [Nat.add flat_map sum_nat]. rewrite app_nil_r. f_equal.
    rewrite <- (IH (fun i => f (Z.of_nat m :: i))). f_equal. clear. induction (all_indices sh); [reflexivity|]. cbn [map flat_map]. congruence.
Qed.
Lemma sum_values sh f : fold_right Rplus 0 (values sh f) = sumNR sh f.
Proof.
  unfold values. replace (map f (all_indices sh)) with (flat_map (fun i => [f i]) (all_indices sh)).
  - rewrite fold_indices. apply sumNR_ext. intros i _. cbn. ring.
  - induction (all_indices sh); [reflexivity|]. cbn. congruence.
Qed.
Lemma sum_valid a : fold_right Rplus 0 (valid_values a) = sumNR (shape a) (fun i => nan0 (get a i)).
Proof. unfold valid_values. rewrite fold_indices. apply sumNR_ext. intros i _. destruct (get a i); cbn; ring. Qed.
Lemma count_valid a : INR (length (valid_values a)) = sumNR (shape a) (fun i => if isnan (get a i) then 0 else 1).
Proof.
  replace (INR (length (valid_values a))) with (fold_right Rplus 0 (flat_map (fun i => match get a i with Fin _ => [1] | NaN => [] end) (all_indices (shape a)))).
  - rewrite fold_indices. apply sumNR_ext. intros i _. destruct (get a i); cbn; ring.
  - unfold valid_values. induction (all_indices (shape a)) as [|i l IH]; [reflexivity|]. cbn [flat_map]. rewrite fold_app, IH, app_length, plus_INR.
    destruct (get a i); cbn; ring.
Qed.
Lemma valid_mean_exact a : valid_mean_rd exact_sarith a = valid_mean a.
Proof.
  unfold valid_mean_rd, valid_mean. rewrite <- count_valid, <- sum_valid. destruct (valid_values a) as [|r l].
  - destruct (Req_EM_T _ 0) as [|N]; [reflexivity|]. exfalso. apply N. reflexivity.
  - destruct (Req_EM_T _ 0) as [Z|_]; [|reflexivity]. exfalso. revert Z. apply not_0_INR. discriminate.
Qed.
Lemma zero_mean_exact zm a : zero_mean_rd exact_sarith zm a = zero_mean zm a.
Proof. unfold zero_mean_rd, zero_mean. rewrite valid_mean_exact. reflexivity. Qed.
Lemma chi2n_map_rd_exact A gb im1 im2 err b zm ra red huge :
  chi2n_map_rd A exact_sarith gb im1 im2 err b zm ra red huge = chi2n_map_with A gb im1 im2 err b zm ra red huge.
Proof.
  unfold chi2n_map_rd, chi2n_map_with, chi2_finish_rd. cbv zeta. rewrite !zero_mean_exact. cbn [exact_sarith sa_rd sa_sum]. destruct (negb _); [reflexivity|]. destruct err as [|s|er].
  - rewrite !sum_values. reflexivity.
  - rewrite !sum_values. reflexivity.
  - rewrite !sum_values. reflexivity.
Qed.
Lemma chi2_shift_rd_exact A B e im1 im2 err us b zm nf vb re rc mas mns huge :
  chi2_shift_rd A exact_sarith B e im1 im2 err us b zm nf vb re rc mas mns huge = chi2_shift_with A B e im1 im2 err us b zm nf vb re rc mas mns huge.
Proof. unfold chi2_shift_rd, chi2_shift_with. rewrite chi2n_map_rd_exact. reflexivity. Qed.
Lemma register_images_rd_exact A A' im1 im2 re zm mo : register_images_rd A A' exact_sarith im1 im2 re zm mo = register_images_with A A' im1 im2 re zm mo.
Proof.
  unfold register_images_rd, register_images_with. rewrite !zero_mean_exact. destruct (negb _); [reflexivity|]. cbv zeta. reflexivity.
Qed.
