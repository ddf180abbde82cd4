(** C117: register_images on noisy images with any sub-pixel offset *)
From Coq Require Import ZArith Lia List Reals Lra Bool.
From Coquelicot Require Import Complex.
From Verif Require Import Base NDim DFT Kernel Num Py Sum2 M_fast_ffts M_shift M_chi2 Arg
  Spec L_shift Spec2 Spec3 Spec4 L_chi2shift L_fshift P_xcorr P_xcorr2 P_xcorr3 M_register L_register L_register2 L_register3 P_register P_register2 P_register3 P_register4 P_rounding L_iterzoom2 L_accuracy P_accuracy.
Import ListNotations.
Open Scope R_scope.

(** 2-norm of the difference between c * f2 and f1 Fourier-shifted by (ty, tx) *)
Definition mismatch_phase (ny nx : Z) (f1 f2 : Z -> Z -> R) (c : C) (ty tx : R) : R :=
  sqrt (pixel_sum ny nx (fun i j => Cmod (Cminus (Cmult c (RtoC (f2 i j))) (cshift ny nx f1 ty tx i j)) ^ 2)).
(** t, up to whole periods, is well inside the fine grid around the coarse estimate a *)
Definition near_coarse (n : Z) (u a t : R) : Prop := exists k : Z, Rabs (t + IZR k * IZR n - a) <= 3 / 4 - 3 / (2 * u).

Lemma Cmod_conj' z : Cmod (Cconj z) = Cmod z.
Proof. unfold Cmod, Cconj. cbn [fst snd]. f_equal. cbn. ring. Qed.
Section Two.
  Variables ny nx : Z.
  Hypotheses (Hy : (0 < ny)%Z) (Hx : (0 < nx)%Z).
  Let Hp : pos_shape [ny; nx]. Proof. apply pos2; auto. Qed.
  Let C2 (f : Z -> Z -> R) : list Z -> C := fun y => RtoC (img2 f y).
  Lemma mismatch_phase_1 f1 f2 ty tx : mismatch_phase ny nx f1 f2 (RtoC 1) ty tx = mismatch ny nx f1 f2 ty tx.
  Proof. unfold mismatch_phase, mismatch. f_equal. apply sum2_ext. intros. rewrite Cmult_1_l. reflexivity. Qed.
  Lemma Re_sum2 (f : Z -> Z -> C) : Re (sumC ny (fun i => sumC nx (fun j => f i j))) = sum2 ny nx (fun i j => Re (f i j)).
  Proof.
    assert (E : forall n g, Re (sumC n g) = sumR n (fun i => Re (g i))).
    { intros n g. unfold sumC, sumR, sumG. induction (Z.to_nat n) as [|m IH]; cbn; [reflexivity|]. unfold Re in *. rewrite <- IH. reflexivity. }
    rewrite E. unfold sum2. apply sumR_ext. intros i _. apply E.
  Qed.
  Lemma mismatch_phase_sq f1 f2 c ty tx : Cmod c = 1 ->
    mismatch_phase ny nx f1 f2 c ty tx ^ 2 = norm2 ny nx f1 ^ 2 + norm2 ny nx f2 ^ 2 - 2 * Re (Cmult (Cconj c) (rcc ny nx f1 f2 ty tx)).
  Proof.
    intros Hc. unfold mismatch_phase, norm2. rewrite !pow2_sqrt by (apply sum2_nonneg; intros; apply pow2_ge_0). change (pixel_sum ny nx) with (sum2 ny nx).
    assert (E : sum2 ny nx (fun i j => f1 i j ^ 2) = sum2 ny nx (fun i j => Cmod (cshift ny nx f1 ty tx i j) ^ 2)).
    { assert (E := shifted_energy [ny; nx] (C2 f1) [ty; tx] 0 Hp eq_refl). rewrite !sum2_sumNR in E. 
      rewrite (sum2_ext ny nx (fun i j => f1 i j ^ 2) (fun i j => Cmod (C2 f1 [i; j]) ^ 2)) by (intros; unfold C2; cbn [img2]; rewrite Cmod_R, pow2_abs; reflexivity).
      rewrite <- E. apply sum2_ext. intros i j _ _. unfold C2. rewrite cshift_shifted by auto. reflexivity. }
    rewrite E. unfold rcc.
    assert (D : Cmult (Cconj c) (sumC ny (fun i => sumC nx (fun j => Cmult (cshift ny nx f1 ty tx i j) (RtoC (f2 i j))))) =
       sumC ny (fun i => sumC nx (fun j => Cmult (Cconj c) (Cmult (cshift ny nx f1 ty tx i j) (RtoC (f2 i j)))))).
    { rewrite <- sumC_scal. apply sumC_ext. intros i _. rewrite <- sumC_scal. reflexivity. }
    rewrite D, Re_sum2. replace (2 * sum2 ny nx _) with (- (-2 * sum2 ny nx (fun i j => Re (Cmult (Cconj c) (Cmult (cshift ny nx f1 ty tx i j) (RtoC (f2 i j))))))) by ring.
    rewrite <- sum2_scal. unfold Rminus. rewrite Ropp_involutive, <- !sum2_plus. apply sum2_ext. intros i j _ _. cbv beta.
    destruct (cshift ny nx f1 ty tx i j) as [a b]. destruct c as [p q].
    assert (Q : p * p + q * q = 1).
    { assert (Q := f_equal (fun v => v ^ 2) Hc). cbv beta in Q. unfold Cmod in Q. rewrite pow2_sqrt in Q by (cbn; assert (T := pow2_ge_0 p); assert (T' := pow2_ge_0 q); cbn in *; lra). cbn in Q. lra. }
    unfold Cmod, Re. rewrite !pow2_sqrt by (match goal with |- 0 <= ?A ^ 2 + ?B ^ 2 => assert (T := pow2_ge_0 A); assert (T' := pow2_ge_0 B); lra end).
    cbn. transitivity (f2 i j * f2 i j * (p * p + q * q) + (a * a + b * b) - 2 * f2 i j * (p * a + q * b)); [ring|rewrite Q; ring].
  Qed.
  Lemma best_phase f1 f2 ty tx : exists c, Cmod c = 1 /\ mismatch_phase ny nx f1 f2 c ty tx ^ 2 = norm2 ny nx f1 ^ 2 + norm2 ny nx f2 ^ 2 - 2 * Cmod (rcc ny nx f1 f2 ty tx).
  Proof.
    set (r := rcc ny nx f1 f2 ty tx). destruct (Ceq_dec r (RtoC 0)) as [Z0|N].
    - exists (RtoC 1). split; [apply Cmod_1|]. rewrite mismatch_phase_sq by apply Cmod_1. fold r. rewrite Z0, Cmod_0, Cmult_0_r. cbn. ring.
    - exists (Cmult r (RtoC (/ Cmod r))). assert (P : 0 < Cmod r) by (apply Cmod_gt_0; auto).
      assert (M : Cmod (Cmult r (RtoC (/ Cmod r))) = 1) by (rewrite Cmod_mult, Cmod_R, Rabs_right by (left; apply Rinv_0_lt_compat; auto); field; lra).
      split; [exact M|]. rewrite mismatch_phase_sq by exact M. fold r.
      assert (SQ : Cmod r * Cmod r = fst r * fst r + snd r * snd r) by (unfold Cmod; rewrite sqrt_sqrt; [cbn; ring|assert (T := pow2_ge_0 (fst r)); assert (T' := pow2_ge_0 (snd r)); lra]).
      replace (Re (Cmult (Cconj (Cmult r (RtoC (/ Cmod r)))) r)) with (Cmod r); [reflexivity|].
      transitivity (Cmod r * Cmod r * / Cmod r); [field; lra|]. rewrite SQ. set (v := / Cmod r). clearbody v. destruct r as [a b]. unfold Re, Cconj, Cmult, RtoC. cbn [fst snd]. ring.
  Qed.
  Lemma mismatch_phase_l2 f1 f2 c ty tx : mismatch_phase ny nx f1 f2 c ty tx = l2 [ny; nx] (fun y => Cminus (Cmult c (C2 f2 y)) (shifted [ny; nx] (C2 f1) [ty; tx] 0 y)).
  Proof. unfold mismatch_phase, l2, l2sq. rewrite sum2_sumNR. f_equal. apply sum2_ext. intros i j _ _. unfold C2 at 2. rewrite cshift_shifted by auto. reflexivity. Qed.
  Lemma l2_scale (c : C) a : Cmod c = 1 -> l2 [ny; nx] (fun y => Cmult c (a y)) = l2 [ny; nx] a.
  Proof. intros Hc. unfold l2, l2sq. f_equal. apply sumNR_ext. intros i _. rewrite Cmod_mult, Hc, Rmult_1_l. reflexivity. Qed.
  (** the spectra of the two shifts agree up to a unit factor *)
  Lemma phase_identify f1 f2 c ty tx sy sx k : Cmod c = 1 -> inb [ny; nx] k ->
    Cmod (dft [ny; nx] (C2 f1) k) * Cmod (Cminus (cis (- (2 * PI * fdot [ny; nx] k [sy; sx]))) (Cmult c (cis (- (2 * PI * fdot [ny; nx] k [ty; tx]))))) <=
    sqrt (IZR (ny * nx)) * (mismatch_phase ny nx f1 f2 c sy sx + mismatch ny nx f1 f2 ty tx).
  Proof.
    intros Hc Hk. set (D := fun y => Cminus (shifted [ny; nx] (C2 f1) [sy; sx] 0 y) (Cmult c (shifted [ny; nx] (C2 f1) [ty; tx] 0 y))).
    assert (E : Cmod (dft [ny; nx] D k) = Cmod (dft [ny; nx] (C2 f1) k) * Cmod (Cminus (cis (- (2 * PI * fdot [ny; nx] k [sy; sx]))) (Cmult c (cis (- (2 * PI * fdot [ny; nx] k [ty; tx])))))).
    { rewrite <- Cmod_mult. f_equal. unfold D. rewrite dft_minus.
      replace (dft [ny; nx] (fun y => Cmult c (shifted [ny; nx] (C2 f1) [ty; tx] 0 y)) k) with (Cmult c (dft [ny; nx] (shifted [ny; nx] (C2 f1) [ty; tx] 0) k)).
      2:{ unfold dft. rewrite <- sumNC_scal. apply sumNC_ext. intros y _. ring. }
      rewrite !dft_shifted by auto. rewrite Rmult_0_l || idtac. ring. }
    rewrite <- E. refine (Rle_trans _ _ _ (l2_term [ny; nx] _ k Hk) _).
    assert (N := prodZ_pos [ny; nx] Hp). assert (N' : 0 < IZR (prodZ [ny; nx])) by (apply IZR_lt; auto).
    change (l2sq [ny; nx] (dft [ny; nx] D)) with (l2sq [ny; nx] (dft [ny; nx] D)). rewrite l2sq_dft by auto. rewrite sqrt_mult by (try lra; apply l2sq_nonneg).
    replace (prodZ [ny; nx]) with (ny * nx)%Z by (cbn; lia). apply Rmult_le_compat_l; [apply sqrt_pos|]. fold (l2 [ny; nx] D).
    refine (Rle_trans _ _ _ (l2_triangle _ _ (fun y => Cmult c (C2 f2 y)) _) _). rewrite l2_sym, <- mismatch_phase_l2. apply Rplus_le_compat_l.
    rewrite mismatch_l2 by auto. rewrite <- (l2_scale c (fun y => Cminus (RtoC (img2 f2 y)) (shifted [ny; nx] (fun y => RtoC (img2 f1 y)) [ty; tx] 0 y))) by auto. right. apply l2_ext. intros y _. unfold C2. ring.
  Qed.
  Lemma phase_pair f1 f2 c ty tx sy sx k l : Cmod c = 1 -> inb [ny; nx] k -> inb [ny; nx] l ->
    2 * Rabs (sin (PI * (fdot [ny; nx] k [sy - ty; sx - tx] - fdot [ny; nx] l [sy - ty; sx - tx]))) * (Cmod (dft [ny; nx] (C2 f1) k) * Cmod (dft [ny; nx] (C2 f1) l)) <=
    sqrt (IZR (ny * nx)) * (mismatch_phase ny nx f1 f2 c sy sx + mismatch ny nx f1 f2 ty tx) * (Cmod (dft [ny; nx] (C2 f1) k) + Cmod (dft [ny; nx] (C2 f1) l)).
  Proof.
    intros Hc Hk Hl. assert (K := phase_identify f1 f2 c ty tx sy sx k Hc Hk). assert (L := phase_identify f1 f2 c ty tx sy sx l Hc Hl).
    set (B := _ * (_ + _)) in *. set (Fk := Cmod (dft [ny; nx] (C2 f1) k)) in *. set (Fl := Cmod (dft [ny; nx] (C2 f1) l)) in *.
    assert (Fk0 : 0 <= Fk) by apply Cmod_ge_0. assert (Fl0 : 0 <= Fl) by apply Cmod_ge_0.
    assert (D : forall m, inb [ny; nx] m -> Cmod (Cminus (cis (- (2 * PI * fdot [ny; nx] m [sy; sx]))) (Cmult c (cis (- (2 * PI * fdot [ny; nx] m [ty; tx]))))) =
       Cmod (Cminus (cis (- (2 * PI * fdot [ny; nx] m [sy - ty; sx - tx]))) c)).
    { intros m Hm. apply inb2 in Hm. destruct Hm as [v [w [-> _]]]. cbn [fdot].
      replace (- (2 * PI * (fftfreq ny v * sy + (fftfreq nx w * sx + 0)))) with (- (2 * PI * (fftfreq ny v * ty + (fftfreq nx w * tx + 0))) + - (2 * PI * (fftfreq ny v * (sy - ty) + (fftfreq nx w * (sx - tx) + 0)))) by ring.
      rewrite cis_plus. set (P := cis (- (2 * PI * (fftfreq ny v * ty + _)))). set (Q := cis (- (2 * PI * (fftfreq ny v * (sy - ty) + _)))).
      replace (Cminus (Cmult P Q) (Cmult c P)) with (Cmult P (Cminus Q c)) by ring. rewrite Cmod_mult. unfold P. rewrite Cmod_cis. ring. }
    rewrite D in K by auto. rewrite D in L by auto.
    set (dk := fdot [ny; nx] k _) in *. set (dl := fdot [ny; nx] l _) in *.
    assert (T : 2 * Rabs (sin (PI * (dk - dl))) <= Cmod (Cminus (cis (- (2 * PI * dk))) c) + Cmod (Cminus (cis (- (2 * PI * dl))) c)).
    { replace (2 * Rabs (sin (PI * (dk - dl)))) with (Cmod (Cminus (cis (- (2 * PI * dk))) (cis (- (2 * PI * dl))))).
      - replace (Cminus (cis (- (2 * PI * dk))) (cis (- (2 * PI * dl)))) with (Cplus (Cminus (cis (- (2 * PI * dk))) c) (Copp (Cminus (cis (- (2 * PI * dl))) c))) by ring.
        refine (Rle_trans _ _ _ (Cmod_triangle _ _) _). rewrite Cmod_opp. lra.
      - rewrite cis_chord. f_equal. rewrite <- Rabs_Ropp, <- sin_neg. f_equal. f_equal. field. }
    set (X := Cmod (Cminus (cis (- (2 * PI * dk))) c)) in *. set (Y := Cmod (Cminus (cis (- (2 * PI * dl))) c)) in *. set (S := 2 * Rabs _) in *.
    assert (FF : 0 <= Fk * Fl) by (apply Rmult_le_pos; auto).
    apply Rle_trans with ((X + Y) * (Fk * Fl)); [apply Rmult_le_compat_r; auto|].
    replace ((X + Y) * (Fk * Fl)) with (Fk * X * Fl + Fl * Y * Fk) by ring. rewrite Rmult_plus_distr_l, (Rplus_comm (B * Fk)).
    apply Rplus_le_compat; apply Rmult_le_compat_r; auto.
  Qed.
End Two.

Theorem C117_register_images :
  forall has_fftw im1 im2 usfac ret_err zeromean maxoff nthreads use_np ny nx,
  shape im1 = [ny; nx] -> shape im2 = [ny; nx] -> (2 <= ny)%Z -> (2 <= nx)%Z -> mo_ok maxoff -> 2 < usfac ->
  let f1 := prep zeromean im1 ny nx in let f2 := prep zeromean im2 ny nx in
  exists (a b : Z) x y,
    register_images has_fftw im1 im2 usfac false ret_err zeromean maxoff nthreads use_np = Ok (nums [x; y] ++ err_out ret_err usfac) /\
    (- ny <= a < ny)%Z /\ (- nx <= b < nx)%Z /\
    (forall s t, within maxoff s -> within maxoff t ->
      Cmod (rcc ny nx f1 f2 (IZR s / 2) (IZR t / 2)) <= Cmod (rcc ny nx f1 f2 (IZR a / 2) (IZR b / 2))) /\
    exists c : C, Cmod c = 1 /\
    forall ty tx, near_coarse ny usfac (IZR a / 2) ty -> near_coarse nx usfac (IZR b / 2) tx ->
      (* the mismatch of the returned offset, up to a unit factor *)
      mismatch_phase ny nx f1 f2 c y x <= mismatch ny nx f1 f2 ty tx + PI / usfac * norm2 ny nx f1 /\
      (* the error of the returned offset *)
      let B := sqrt (IZR (ny * nx)) * (2 * mismatch ny nx f1 f2 ty tx + PI / usfac * norm2 ny nx f1) in
      let F k l := Cmod (dft [ny; nx] (fun p => RtoC (img2 f1 p)) [k; l]) in
      forall k l k' l', (0 <= k < ny)%Z -> (0 <= l < nx)%Z -> (0 <= k' < ny)%Z -> (0 <= l' < nx)%Z ->
        2 * Rabs (sin (PI * ((fftfreq ny k - fftfreq ny k') * (y - ty) + (fftfreq nx l - fftfreq nx l') * (x - tx)))) * (F k l * F k' l') <= B * (F k l + F k' l').
Proof.
  intros fw im1 im2 u re zm mo nt np ny nx H1 H2 Hy Hx Hm Hu f1 f2.
  destruct (C53_upsampled_maximum fw im1 im2 u re zm mo nt np ny nx H1 H2 Hy Hx Hm Hu) as [a [b [A [B [E [Ha [Hb [M1 [_ [_ [M2 _]]]]]]]]]]].
  fold f1 f2 in M1, M2. exists a, b, (IZR B / u), (IZR A / u). split; [exact E|]. split; [exact Ha|]. split; [exact Hb|]. split; [exact M1|].
  assert (Hy' : (0 < ny)%Z) by lia. assert (Hx' : (0 < nx)%Z) by lia.
  destruct (best_phase ny nx Hy' Hx' f1 f2 (IZR A / u) (IZR B / u)) as [c [Hc Ec]]. exists c. split; [exact Hc|].
  intros ty tx [k Ky] [l Lx].
  assert (NN : forall (t : R) c0, Rabs (t - c0) <= 3 / 4 - 3 / (2 * u) -> exists s : Z, Rabs (t - IZR s / u) <= 1 / (2 * u) /\ Rabs (IZR s / u - c0) <= 3 / 4 - 1 / u).
  { intros t c0 H. assert (AR := archimed (t * u - 1 / 2)). set (z := up (t * u - 1 / 2)) in *. destruct AR as [R1 R2]. exists z.
    assert (W : Rabs (t - IZR z / u) <= 1 / (2 * u)).
    { replace (t - IZR z / u) with ((t * u - IZR z) * / u) by (field; lra). rewrite Rabs_mult, (Rabs_right (/ u)) by (left; apply Rinv_0_lt_compat; lra).
      replace (1 / (2 * u)) with (1 / 2 * / u) by (field; lra). apply Rmult_le_compat_r; [left; apply Rinv_0_lt_compat; lra|]. apply Rabs_le. lra. }
    split; [exact W|]. replace (IZR z / u - c0) with (- (t - IZR z / u) + (t - c0)) by ring. refine (Rle_trans _ _ _ (Rabs_triang _ _) _). rewrite Rabs_Ropp.
    assert (3 / (2 * u) - 1 / (2 * u) = 1 / u) by (field; lra). lra. }
  destruct (NN _ _ Ky) as [s [S1 S2]]. destruct (NN _ _ Lx) as [t [T1 T2]].
  assert (P : mismatch_phase ny nx f1 f2 c (IZR A / u) (IZR B / u) <= mismatch ny nx f1 f2 ty tx + PI / u * norm2 ny nx f1).
  { apply Rle_trans with (mismatch ny nx f1 f2 (IZR s / u) (IZR t / u)).
    - apply Rsqr_incr_0_var; [|apply sqrt_pos]. unfold Rsqr. specialize (M2 s t S2 T2).
      replace (mismatch_phase ny nx f1 f2 c (IZR A / u) (IZR B / u) * mismatch_phase ny nx f1 f2 c (IZR A / u) (IZR B / u)) with (mismatch_phase ny nx f1 f2 c (IZR A / u) (IZR B / u) ^ 2) by (cbn; ring).
      rewrite Ec, <- mismatch_phase_1. set (m := mismatch_phase _ _ _ _ _ _ _). replace (m * m) with (m ^ 2) by (cbn; ring). unfold m.
      rewrite mismatch_phase_sq by (auto || apply Cmod_1). set (r := rcc ny nx f1 f2 (IZR s / u) (IZR t / u)) in *.
      assert (Q : Re (Cmult (Cconj (RtoC 1)) r) <= Cmod r).
      { replace (Cmult (Cconj (RtoC 1)) r) with r by (destruct r; unfold Cmult, Cconj, RtoC; cbn; f_equal; ring). unfold Cmod, Re. refine (Rle_trans _ _ _ (Rle_abs _) _). rewrite <- sqrt_Rsqr_abs. apply sqrt_le_1_alt. unfold Rsqr. assert (T := pow2_ge_0 (snd r)). cbn [pow] in *. lra. }
      lra.
    - rewrite <- (mismatch_period ny nx Hy' Hx' f1 f2 ty tx k l). replace (PI / u) with (2 * PI * (1 / (2 * u))) by (field; lra).
      apply mismatch_near; auto; try (rewrite Rabs_minus_sym; auto). left. apply Rmult_lt_0_compat; [lra|apply Rinv_0_lt_compat; lra]. }
  split; [exact P|]. intros BB F k0 l0 k' l' Hk Hl Hk' Hl'.
  assert (Q := phase_pair ny nx Hy' Hx' f1 f2 c ty tx (IZR A / u) (IZR B / u) [k0; l0] [k'; l'] Hc (inb2_intro _ _ _ _ Hk Hl) (inb2_intro _ _ _ _ Hk' Hl')).
  cbn [fdot] in Q. fold (F k0 l0) (F k' l') in Q.
  replace (fftfreq ny k0 * (IZR A / u - ty) + (fftfreq nx l0 * (IZR B / u - tx) + 0) - (fftfreq ny k' * (IZR A / u - ty) + (fftfreq nx l' * (IZR B / u - tx) + 0)))
    with ((fftfreq ny k0 - fftfreq ny k') * (IZR A / u - ty) + (fftfreq nx l0 - fftfreq nx l') * (IZR B / u - tx)) in Q by ring.
  refine (Rle_trans _ _ _ Q _). apply Rmult_le_compat_r; [apply Rplus_le_le_0_compat; apply Cmod_ge_0|]. apply Rmult_le_compat_l; [apply sqrt_pos|]. lra.
Qed.
Print Assumptions C117_register_images.

(** the error along each axis, from the lowest frequencies and (optionally) the flux of the image *)
Theorem C117_offset_error :
  forall has_fftw im1 im2 usfac ret_err zeromean maxoff nthreads use_np ny nx,
  shape im1 = [ny; nx] -> shape im2 = [ny; nx] -> (3 <= ny)%Z -> (3 <= nx)%Z -> mo_ok maxoff -> 2 < usfac ->
  let f1 := prep zeromean im1 ny nx in let f2 := prep zeromean im2 ny nx in
  exists (a b : Z) x y,
    register_images has_fftw im1 im2 usfac false ret_err zeromean maxoff nthreads use_np = Ok (nums [x; y] ++ err_out ret_err usfac) /\
    (- ny <= a < ny)%Z /\ (- nx <= b < nx)%Z /\
    (forall s t, within maxoff s -> within maxoff t ->
      Cmod (rcc ny nx f1 f2 (IZR s / 2) (IZR t / 2)) <= Cmod (rcc ny nx f1 f2 (IZR a / 2) (IZR b / 2))) /\
    forall ty tx, near_coarse ny usfac (IZR a / 2) ty -> near_coarse nx usfac (IZR b / 2) tx ->
      let B := sqrt (IZR (ny * nx)) * (2 * mismatch ny nx f1 f2 ty tx + PI / usfac * norm2 ny nx f1) in
      let Fy := Cmod (sumC ny (fun i => sumC nx (fun j => Cmult (RtoC (f1 i j)) (cis (- (2 * PI * (IZR i / IZR ny))))))) in
      let Fx := Cmod (sumC ny (fun i => sumC nx (fun j => Cmult (RtoC (f1 i j)) (cis (- (2 * PI * (IZR j / IZR nx))))))) in
      let F0 := Rabs (pixel_sum ny nx f1) in
      Rabs (sin (2 * PI * (y - ty) / IZR ny)) * Fy <= B /\
      Rabs (sin (2 * PI * (x - tx) / IZR nx)) * Fx <= B /\
      2 * Rabs (sin (PI * (y - ty) / IZR ny)) * (Fy * F0) <= B * (Fy + F0) /\
      2 * Rabs (sin (PI * (x - tx) / IZR nx)) * (Fx * F0) <= B * (Fx + F0).
Proof.
  intros fw im1 im2 u re zm mo nt np ny nx H1 H2 Hy Hx Hm Hu f1 f2.
  destruct (C117_register_images fw im1 im2 u re zm mo nt np ny nx H1 H2 ltac:(lia) ltac:(lia) Hm Hu) as [a [b [x [y [E [Ha [Hb [M1 [c [Hc K]]]]]]]]]].
  fold f1 f2 in M1, K. exists a, b, x, y. split; [exact E|]. split; [exact Ha|]. split; [exact Hb|]. split; [exact M1|].
  intros ty tx Ty Tx B Fy Fx F0. destruct (K ty tx Ty Tx) as [_ Q]. cbv zeta in Q. fold B in Q.
  set (F := fun k l => dft [ny; nx] (fun p => RtoC (img2 f1 p)) [k; l]).
  assert (Q2 : forall k l k' l', (0 <= k < ny)%Z -> (0 <= l < nx)%Z -> (0 <= k' < ny)%Z -> (0 <= l' < nx)%Z ->
        2 * Rabs (sin (PI * ((fftfreq ny k - fftfreq ny k') * (y - ty) + (fftfreq nx l - fftfreq nx l') * (x - tx)))) * (Cmod (F k l) * Cmod (F k' l')) <= B * (Cmod (F k l) + Cmod (F k' l'))) by exact Q.
  clear Q. rename Q2 into Q.
  assert (f0 : forall n, (3 <= n)%Z -> fftfreq n 0 = 0).
  { intros n Hn. unfold fftfreq, fidx. destruct (Z.leb_spec 0 ((n - 1) / 2)); [unfold Rdiv; ring|exfalso; Z.to_euclidean_division_equations; lia]. }
  assert (fr1 : forall n, (3 <= n)%Z -> fftfreq n 1 = 1 / IZR n).
  { intros n Hn. unfold fftfreq, fidx. destruct (Z.leb_spec 1 ((n - 1) / 2)); [reflexivity|exfalso; Z.to_euclidean_division_equations; lia]. }
  assert (frm : forall n, (3 <= n)%Z -> fftfreq n (n - 1) = - (1 / IZR n)).
  { intros n Hn. unfold fftfreq, fidx. destruct (Z.leb_spec (n - 1) ((n - 1) / 2)); [exfalso; Z.to_euclidean_division_equations; lia|]. replace (n - 1 - n)%Z with (-1)%Z by lia. unfold Rdiv. ring. }
  assert (NY : IZR ny <> 0) by (apply IZR_neq0; lia). assert (NX : IZR nx <> 0) by (apply IZR_neq0; lia).
  assert (EF : forall k l, F k l = sumC ny (fun i => sumC nx (fun j => Cmult (RtoC (f1 i j)) (cis (- (2 * PI * (IZR k * IZR i / IZR ny + IZR l * IZR j / IZR nx))))))).
  { intros k l. unfold F, dft. rewrite sumNC_cons. apply sumC_ext. intros i _. rewrite sumNC_cons. apply sumC_ext. intros j _. rewrite sumNC_nil. cbn [img2]. f_equal. f_equal. cbn [phZ]. ring. }
  assert (Ey : Cmod (F 1%Z 0%Z) = Fy) by (rewrite EF; unfold Fy; f_equal; apply sumC_ext; intros i _; apply sumC_ext; intros j _; f_equal; f_equal; unfold Rdiv; ring).
  assert (Ex : Cmod (F 0%Z 1%Z) = Fx) by (rewrite EF; unfold Fx; f_equal; apply sumC_ext; intros i _; apply sumC_ext; intros j _; f_equal; f_equal; unfold Rdiv; ring).
  assert (E0 : Cmod (F 0%Z 0%Z) = F0).
  { rewrite EF. unfold F0. rewrite <- Cmod_R. f_equal. unfold pixel_sum. rewrite <- sumC_RtoC. apply sumC_ext. intros i _. rewrite <- sumC_RtoC. apply sumC_ext. intros j _.
    replace (- (2 * PI * (IZR 0 * IZR i / IZR ny + IZR 0 * IZR j / IZR nx))) with 0 by (unfold Rdiv; ring). rewrite cis_0. ring. }
  assert (CJ : forall k l k' l', (forall i j, (0 <= i < ny)%Z -> (0 <= j < nx)%Z -> cis (- (2 * PI * (IZR k' * IZR i / IZR ny + IZR l' * IZR j / IZR nx))) = Cconj (cis (- (2 * PI * (IZR k * IZR i / IZR ny + IZR l * IZR j / IZR nx))))) -> Cmod (F k' l') = Cmod (F k l)).
  { intros k l k' l' H. rewrite !EF. rewrite <- (Cmod_conj' (sumC ny (fun i => sumC nx (fun j => Cmult (RtoC (f1 i j)) (cis (- (2 * PI * (IZR k * IZR i / IZR ny + IZR l * IZR j / IZR nx)))))))).
    f_equal. rewrite Cconj_sumC. apply sumC_ext. intros i Hi. rewrite Cconj_sumC. apply sumC_ext. intros j Hj. rewrite H by auto. unfold Cconj, RtoC, Cmult. cbn [fst snd]. f_equal; ring. }
  assert (Ey' : Cmod (F (ny - 1)%Z 0%Z) = Fy).
  { rewrite <- Ey. apply CJ. intros i j _ _. rewrite <- cis_opp_conj. 
    replace (- (2 * PI * (IZR (ny - 1) * IZR i / IZR ny + IZR 0 * IZR j / IZR nx))) with (- - (2 * PI * (IZR 1 * IZR i / IZR ny + IZR 0 * IZR j / IZR nx)) + 2 * PI * IZR (- i)) by (rewrite minus_IZR, opp_IZR; field; auto).
    apply cis_period. }
  assert (Ex' : Cmod (F 0%Z (nx - 1)%Z) = Fx).
  { rewrite <- Ex. apply CJ. intros i j _ _. rewrite <- cis_opp_conj. 
    replace (- (2 * PI * (IZR 0 * IZR i / IZR ny + IZR (nx - 1) * IZR j / IZR nx))) with (- - (2 * PI * (IZR 0 * IZR i / IZR ny + IZR 1 * IZR j / IZR nx)) + 2 * PI * IZR (- j)) by (rewrite minus_IZR, opp_IZR; field; auto).
    apply cis_period. }
  assert (B0 : 0 <= B).
  { unfold B. apply Rmult_le_pos; [apply sqrt_pos|]. assert (0 <= mismatch ny nx f1 f2 ty tx) by apply sqrt_pos. assert (0 <= norm2 ny nx f1) by apply sqrt_pos.
    assert (0 <= PI / u * norm2 ny nx f1) by (apply Rmult_le_pos; auto; apply Rmult_le_pos; [left; apply PI_RGT_0|left; apply Rinv_0_lt_compat; lra]). lra. }
  assert (HALF : forall s G, 0 <= G -> 2 * Rabs s * (G * G) <= B * (G + G) -> Rabs s * G <= B).
  { intros s G G0 H. destruct (Rle_lt_or_eq_dec _ _ G0) as [P|P]; [|rewrite <- P; lra]. apply (Rmult_le_reg_r (2 * G)); [lra|]. replace (Rabs s * G * (2 * G)) with (2 * Rabs s * (G * G)) by ring. lra. }
  assert (Fy0 : 0 <= Fy) by apply Cmod_ge_0. assert (Fx0 : 0 <= Fx) by apply Cmod_ge_0.
  split; [|split; [|split]].
  - specialize (Q 1%Z 0%Z (ny - 1)%Z 0%Z ltac:(lia) ltac:(lia) ltac:(lia) ltac:(lia)). rewrite Ey, Ey', fr1, frm in Q by auto.
    apply HALF; auto. replace (2 * PI * (y - ty) / IZR ny) with (PI * ((1 / IZR ny - - (1 / IZR ny)) * (y - ty) + (fftfreq nx 0 - fftfreq nx 0) * (x - tx))) by (field; auto). exact Q.
  - specialize (Q 0%Z 1%Z 0%Z (nx - 1)%Z ltac:(lia) ltac:(lia) ltac:(lia) ltac:(lia)). rewrite Ex, Ex', fr1, frm in Q by auto.
    apply HALF; auto. replace (2 * PI * (x - tx) / IZR nx) with (PI * ((fftfreq ny 0 - fftfreq ny 0) * (y - ty) + (1 / IZR nx - - (1 / IZR nx)) * (x - tx))) by (field; auto). exact Q.
  - specialize (Q 1%Z 0%Z 0%Z 0%Z ltac:(lia) ltac:(lia) ltac:(lia) ltac:(lia)). rewrite Ey, E0, fr1, !f0 in Q by auto.
    replace (PI * (y - ty) / IZR ny) with (PI * ((1 / IZR ny - 0) * (y - ty) + (0 - 0) * (x - tx))) by (field; auto). exact Q.
  - specialize (Q 0%Z 1%Z 0%Z 0%Z ltac:(lia) ltac:(lia) ltac:(lia) ltac:(lia)). rewrite Ex, E0, fr1, !f0 in Q by auto.
    replace (PI * (x - tx) / IZR nx) with (PI * ((0 - 0) * (y - ty) + (1 / IZR nx - 0) * (x - tx))) by (field; auto). exact Q.
Qed.
Print Assumptions C117_offset_error.

(** the registered image (its quadrants are exchanged, C55) is the first image up to noise and grid step *)
Theorem C117_registered :
  forall has_fftw im1 im2 usfac ret_err zeromean maxoff nthreads use_np ny nx,
  shape im1 = [ny; nx] -> shape im2 = [ny; nx] -> (2 <= ny)%Z -> (2 <= nx)%Z -> mo_ok maxoff -> 2 < usfac ->
  let f1 := prep zeromean im1 ny nx in let f2 := prep zeromean im2 ny nx in
  exists (a b : Z) x y img,
    register_images has_fftw im1 im2 usfac true ret_err zeromean maxoff nthreads use_np = Ok (nums [x; y] ++ err_out ret_err usfac ++ [RgImg img]) /\
    shape img = [ny; nx] /\ (- ny <= a < ny)%Z /\ (- nx <= b < nx)%Z /\
    (forall s t, within maxoff s -> within maxoff t ->
      Cmod (rcc ny nx f1 f2 (IZR s / 2) (IZR t / 2)) <= Cmod (rcc ny nx f1 f2 (IZR a / 2) (IZR b / 2))) /\
    forall ty tx, near_coarse ny usfac (IZR a / 2) ty -> near_coarse nx usfac (IZR b / 2) tx ->
      norm2 ny nx (fun i j => get img [((i - ny / 2) mod ny)%Z; ((j - nx / 2) mod nx)%Z] - Rabs (f1 i j)) <=
      mismatch ny nx f1 f2 ty tx + PI / usfac * norm2 ny nx f1.
Proof.
  intros fw im1 im2 u re zm mo nt np ny nx H1 H2 Hy Hx Hm Hu f1 f2.
  assert (Hy' : (0 < ny)%Z) by lia. assert (Hx' : (0 < nx)%Z) by lia. assert (Hp : pos_shape [ny; nx]) by (apply pos2; auto).
  destruct (C117_register_images fw im1 im2 u re zm mo nt np ny nx H1 H2 Hy Hx Hm Hu) as [a [b [x [y [E [Ha [Hb [M1 [c [Hc K]]]]]]]]]].
  fold f1 f2 in M1, K.
  destruct (C55_registered_image fw im1 im2 u re zm mo nt np ny nx H1 H2 Hy' Hx' ltac:(lra)) as [x' [y' [img [E1 [E2 [Si G]]]]]].
  rewrite E in E1. injection E1 as <- <-. fold f2 in G.
  exists a, b, x, y, img. split; [exact E2|]. split; [exact Si|]. split; [exact Ha|]. split; [exact Hb|]. split; [exact M1|].
  intros ty tx Ty Tx. destruct (K ty tx Ty Tx) as [P _]. refine (Rle_trans _ _ _ _ P).
  rewrite mismatch_phase_l2 by auto.
  rewrite <- (shift_back [ny; nx] Hp (fun p => RtoC (img2 f1 p)) (fun p => Cmult c (RtoC (img2 f2 p))) [y; x] eq_refl).
  unfold norm2, l2, l2sq. rewrite sum2_sumNR. apply sqrt_le_1_alt. apply sum2_le. intros i j Hi Hj. cbv beta. rewrite <- pow2_abs. apply pow_incr. split; [apply Rabs_pos|].
  rewrite G by (apply Z.mod_pos_bound; lia).
  replace (((i - ny / 2) mod ny + ny / 2) mod ny)%Z with i by (rewrite Zplus_mod_idemp_l; replace (i - ny / 2 + ny / 2)%Z with i by lia; rewrite Z.mod_small; lia).
  replace (((j - nx / 2) mod nx + nx / 2) mod nx)%Z with j by (rewrite Zplus_mod_idemp_l; replace (j - nx / 2 + nx / 2)%Z with j by lia; rewrite Z.mod_small; lia).
  rewrite <- cshift_shifted by auto. cbn [map]. set (f2c := fun q => RtoC (img2 f2 q)).
  rewrite (shifted_ext [ny; nx] (fun p => Cmult c (RtoC (img2 f2 p))) (fun p => Cplus (Cmult c (f2c p)) (Cmult (RtoC 0) (f2c p))) [- y; - x] 0 [i; j]) by (intros; unfold f2c; ring).
  rewrite shifted_lin by auto. fold f2c. set (z := shifted [ny; nx] f2c [- y; - x] 0 [i; j]). cbn [img2].
  replace (Cminus _ _) with (Cminus (Cmult c z) (RtoC (f1 i j))) by ring.
  replace (Cmod z) with (Cmod (Cmult c z)) by (rewrite Cmod_mult, Hc; ring). rewrite <- (Cmod_R (f1 i j)).
  set (p := Cmult c z). set (q := RtoC (f1 i j)).
  assert (T1 := Cmod_triangle (Cminus p q) q). replace (Cplus (Cminus p q) q) with p in T1 by ring.
  assert (T2 := Cmod_triangle (Copp (Cminus p q)) p). replace (Cplus (Copp (Cminus p q)) p) with q in T2 by ring. rewrite Cmod_opp in T2.
  apply Rabs_le. lra.
Qed.
Print Assumptions C117_registered.

Example C117_nonvacuous : exists im1 im2 : arr num, is_roll im1 im2 4 5 2 (-2) /\ mo_ok None /\
  forall a b : Z,
    (forall s t, within None s -> within None t ->
      Cmod (rcc 4 5 (prep false im1 4 5) (prep false im2 4 5) (IZR s / 2) (IZR t / 2)) <= Cmod (rcc 4 5 (prep false im1 4 5) (prep false im2 4 5) (IZR a / 2) (IZR b / 2))) ->
    near_coarse 4 8 (IZR a / 2) (2 + 1 / 8) /\ near_coarse 5 8 (IZR b / 2) (-2).
Proof.
  destruct C51_nonvacuous as [HR _]. cbv zeta in HR. exists (dot 4 5 1 1), (dot 4 5 3 4). split; [exact HR|]. split; [exact I|].
  assert (Hp := dot_no_phase_symmetry 4 5 1 1 ltac:(lia) ltac:(lia) ltac:(lia) ltac:(lia)). intros a b H.
  set (f := prep false (dot 4 5 1 1) 4 5) in *. set (g := prep false (dot 4 5 3 4) 4 5) in *.
  assert (Hr : forall y x, (0 <= y < 4)%Z -> (0 <= x < 5)%Z -> g y x = f ((y - 2) mod 4)%Z ((x - -2) mod 5)%Z).
  { destruct HR as [_ [_ R]]. intros y x Y X. unfold f, g, prep. rewrite R by auto. reflexivity. }
  assert (W : whole_period 4 (IZR a / 2 - 2) /\ whole_period 5 (IZR b / 2 - -2)).
  { assert (D : ~ ~ (whole_period 4 (IZR a / 2 - 2) /\ whole_period 5 (IZR b / 2 - -2))).
    { intros N. assert (L := rcc_strict 4 5 f g 2 (-2) ltac:(lia) ltac:(lia) Hr (IZR a / 2) (IZR b / 2) Hp N). specialize (H 4%Z (-4)%Z I I).
      replace (4 / 2) with 2 in H by lra. replace (-4 / 2) with (-2) in H by lra. lra. }
    apply Classical_Prop.NNPP. exact D. }
  destruct W as [[W|[k W]] [W'|[l W']]]; try (exfalso; lia). split; [exists k|exists l].
  - replace (2 + 1 / 8 + IZR k * 4 - IZR a / 2) with (1 / 8) by lra. rewrite Rabs_right by lra. lra.
  - replace (-2 + IZR l * 5 - IZR b / 2) with 0 by lra. rewrite Rabs_R0. lra.
Qed.
