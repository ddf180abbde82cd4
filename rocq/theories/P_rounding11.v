(** C135: several shifts in a row, with rounding *)
From Coq Require Import ZArith Lia List Reals Lra Bool.
From Coquelicot Require Import Complex.
From Verif Require Import Base NDim DFT Kernel Num Py Sum2 M_fast_ffts M_shift M_scale M_zoom M_upsample M_convolve M_correlate Arg M_chi2 M_xcorr M_register M_rounding M_rounding2 M_rounding3 M_rounding9
  Spec L_shift L_scale P_shift P_scale P_rounding P_rounding2 L_iterzoom2 L_rounding3 L_rounding6 L_rounding7 L_rounding8 L_accuracy P_rounding9 P_sampled.
Import ListNotations.
Open Scope R_scope.

Lemma within_each_refl l : within_each (map (fun _ => 0) l) l l.
Proof. induction l as [|x l IH]; constructor; auto. replace (x - x) with 0 by ring. rewrite Rabs_R0. lra. Qed.
(** the 2-norm of an array whose pixels are all at most d *)
Lemma size2_bound sh h d : pos_shape sh -> 0 <= d -> (forall x, inb sh x -> Rabs (h x) <= d) -> size2 sh h <= sqrt (IZR (prodZ sh)) * d.
Proof.
  intros Hp Hd Hh. unfold size2. rewrite <- (sqrt_pow2 d Hd), <- sqrt_mult by (try apply pow2_ge_0; apply IZR_le; assert (T := prodZ_pos sh Hp); lia).
  apply sqrt_le_1_alt. rewrite <- (sumNR_const sh (d ^ 2) Hp). apply sumNR_le. intros x Hx. rewrite <- (pow2_abs (h x)). apply pow_incr. split; [apply Rabs_pos|auto].
Qed.

Lemma inhabited_shape sh : pos_shape sh -> exists x, inb sh x.
Proof.
  intros Hp. exists (map (fun _ => 0%Z) sh). induction sh as [|n sh IH]; [constructor|]. apply pos_shape_cons in Hp. constructor; [lia|apply IH; tauto].
Qed.

Section Rounded.
Variables (eps mu T : R) (A : arith) (B : zarith) (S : sarith).
Notation err data off := (shift_error eps mu data off 0 (map (fun _ => 0) off) false true).

(** real output of one rounded shift: within the error of the exact one *)
Lemma shift_fp_real img a : pos_shape (shape img) -> length a = ndim img ->
  accurate eps (shape img) A -> accurate_exp eps T B -> rounds mu S -> largest_phase a 0 * (1 + mu) ^ (length a + 7) <= T ->
  exists r r', shiftnd false (of_R img) a 0 1 false false true = Ok (RealArr r) /\ shiftnd_fp A B S (of_R img) a 0 false true = Ok (RealArr r') /\
    shape r = shape img /\ shape r' = shape img /\
    (forall x, inb (shape img) x -> get r x = trig_interpR (shape img) (get img) (coord_minus x a)) /\
    (forall x, inb (shape img) x -> Rabs (get r' x - get r x) <= err (of_R img) a).
Proof.
  intros Hp La HA HB HS HT.
  assert (Q := C125_shiftnd eps mu T A B S false (of_R img) a a (map (fun _ => 0) a) 0 1%Z false false true HA HB HS (within_each_refl a) HT).
  destruct (C14_shift_is_interpolation false img a 1%Z false false Hp La) as [r [E [Sh V]]]. rewrite E in Q. destruct Q as [[r'|r'] [E' W]]; [|contradiction].
  exists r, r'. cbn in W. destruct W as [W1 W2]. split; [exact E|]. split; [exact E'|]. split; [exact Sh|]. split; [congruence|]. split; [exact V|].
  intros x Hx. apply W2. rewrite W1, Sh. exact Hx.
Qed.

(** *** C135 *)
Theorem C135_compose :
  forall (img : arr R) (a b : list R),
  pos_shape (shape img) -> length a = ndim img -> length b = ndim img ->
  Forall (fun n => Z.odd n = true) (shape img) \/ integral a \/ integral b ->
  accurate eps (shape img) A -> accurate_exp eps T B -> rounds mu S ->
  largest_phase a 0 * (1 + mu) ^ (length a + 7) <= T -> largest_phase b 0 * (1 + mu) ^ (length b + 7) <= T ->
  exists r1 r2 r3,
    shiftnd_fp A B S (of_R img) a 0 false true = Ok (RealArr r1) /\ shiftnd_fp A B S (of_R r1) b 0 false true = Ok (RealArr r2) /\
    shiftnd false (of_R img) (zipw Rplus a b) 0 1 false false true = Ok (RealArr r3) /\ shape r2 = shape img /\ shape r3 = shape img /\
    forall x, inb (shape img) x -> Rabs (get r2 x - get r3 x) <= sqrt (IZR (prodZ (shape img))) * err (of_R img) a + err (of_R r1) b.
Proof.
  intros img a b Hp La Lb Hc HA HB HS Ta Tb.
  destruct (shift_fp_real img a Hp La HA HB HS Ta) as [e1 [r1 [E1 [F1 [Se1 [Sr1 [V1 W1]]]]]]].
  assert (Lb1 : length b = ndim r1) by (unfold ndim in *; rewrite Sr1; exact Lb).
  destruct (shift_fp_real r1 b ltac:(rewrite Sr1; auto) Lb1 ltac:(rewrite Sr1; auto) HB HS Tb) as [e2 [r2 [E2 [F2 [Se2 [Sr2 [V2 W2]]]]]]].
  rewrite Sr1 in V2, W2, Sr2, Se2.
  destruct (C03_real_shifts_compose false img a b 1%Z false Hp La Lb Hc) as [x1 [x2 [x3 [X1 [X2 [X3 X4]]]]]]. rewrite E1 in X1. injection X1 as <-.
  destruct (C14_shift_is_interpolation false e1 b 1%Z false false ltac:(rewrite Se1; auto) ltac:(unfold ndim in *; rewrite Se1; exact Lb)) as [y [Y1 [Y2 Y3]]]. rewrite X2 in Y1. injection Y1 as <-. rewrite Se1 in Y2, Y3.
  exists r1, r2, x3. split; [exact F1|]. split; [exact F2|]. split; [exact X3|]. split; [exact Sr2|]. split; [destruct X4 as [X4 _]; congruence|].
  intros x Hx. destruct X4 as [X4 X5]. rewrite <- X5 by (rewrite Y2; exact Hx). specialize (W2 x Hx).
  assert (D0 : 0 <= err (of_R img) a) by (eapply Rle_trans; [apply Rabs_pos|apply (W1 x Hx)]).
  assert (K : Rabs (get e2 x - get x2 x) <= sqrt (IZR (prodZ (shape img))) * err (of_R img) a).
  { rewrite V2, Y3 by auto. set (p := coord_minus x b). assert (Lp : length p = length (shape img)) by (unfold p; rewrite coord_minus_sub, subR_length; unfold toR, ndim in *; rewrite map_length; assert (Lx := inb_length _ _ Hx); lia).
    replace (trig_interpR (shape img) (get r1) p - trig_interpR (shape img) (get e1) p) with (trig_interpR (shape img) (fun y => get r1 y - get e1 y) p).
    - refine (Rle_trans _ _ _ (interpR_le _ _ _ Hp Lp) _). apply size2_bound; auto.
    - rewrite <- !trig_interp_Re. rewrite (ti_ext _ (fun y => RtoC (get r1 y - get e1 y)) (fun y => Cminus (RtoC (get r1 y)) (RtoC (get e1 y)))) by (intros; apply RtoC_minus). rewrite ti_minus. reflexivity. }
  replace (get r2 x - get x2 x) with ((get r2 x - get e2 x) + (get e2 x - get x2 x)) by ring. assert (TR := Rabs_triang (get r2 x - get e2 x) (get e2 x - get x2 x)). lra.
Qed.
Print Assumptions C135_compose.

(** there and back again *)
Theorem C135_round_trip :
  forall (img : arr R) (a : list R),
  pos_shape (shape img) -> length a = ndim img ->
  Forall (fun n => Z.odd n = true) (shape img) \/ integral a ->
  accurate eps (shape img) A -> accurate_exp eps T B -> rounds mu S -> largest_phase a 0 * (1 + mu) ^ (length a + 7) <= T ->
  exists r1 r2,
    shiftnd_fp A B S (of_R img) a 0 false true = Ok (RealArr r1) /\ shiftnd_fp A B S (of_R r1) (map Ropp a) 0 false true = Ok (RealArr r2) /\
    shape r2 = shape img /\
    forall x, inb (shape img) x -> Rabs (get r2 x - get img x) <= sqrt (IZR (prodZ (shape img))) * err (of_R img) a + err (of_R r1) (map Ropp a).
Proof.
  intros img a Hp La Hc HA HB HS Ta.
  assert (LP : largest_phase (map Ropp a) 0 = largest_phase a 0).
  { unfold largest_phase. rewrite map_map. replace (map (fun x => Rabs (- x)) a) with (map Rabs a); [reflexivity|]. apply map_ext. intros; symmetry; apply Rabs_Ropp. }
  destruct (C135_compose img a (map Ropp a) Hp La ltac:(rewrite map_length; auto) ltac:(tauto) HA HB HS Ta ltac:(rewrite LP, map_length; auto)) as [r1 [r2 [r3 [F1 [F2 [F3 [S2 [S3 W]]]]]]]].
  exists r1, r2. split; [exact F1|]. split; [exact F2|]. split; [exact S2|]. intros x Hx. specialize (W x Hx).
  replace (zipw Rplus a (map Ropp a)) with (map (fun _ : Z => 0) (shape img)) in F3.
  - destruct (C04_zero_shift_is_identity false img 1%Z false false Hp) as [r [E [_ V]]]. rewrite E in F3. injection F3 as ->. rewrite <- V by (rewrite S3; auto). exact W.
  - unfold ndim in La. clear -La. revert La. generalize (shape img). intros sh. revert a. induction sh as [|n sh IH]; intros [|a0 a] H; simpl in *; try discriminate; auto. rewrite <- IH by lia. f_equal. lra.
Qed.
Print Assumptions C135_round_trip.

(** the total is kept up to the error times the number of pixels; the 2-norm grows by at most the error times its root *)
Theorem C135_flux_and_norm :
  forall (img : arr R) (a : list R),
  pos_shape (shape img) -> length a = ndim img ->
  accurate eps (shape img) A -> accurate_exp eps T B -> rounds mu S -> largest_phase a 0 * (1 + mu) ^ (length a + 7) <= T ->
  exists r, shiftnd_fp A B S (of_R img) a 0 false true = Ok (RealArr r) /\ shape r = shape img /\
    Rabs (total r - total img) <= IZR (prodZ (shape img)) * err (of_R img) a /\
    size2 (shape img) (get r) <= size2 (shape img) (get img) + sqrt (IZR (prodZ (shape img))) * err (of_R img) a.
Proof.
  intros img a Hp La HA HB HS Ta.
  destruct (shift_fp_real img a Hp La HA HB HS Ta) as [e1 [r1 [E1 [F1 [Se1 [Sr1 [V1 W1]]]]]]]. exists r1. split; [exact F1|]. split; [exact Sr1|].
  destruct (inhabited_shape (shape img) Hp) as [x0 X0]. assert (D0 : 0 <= err (of_R img) a) by (eapply Rle_trans; [apply Rabs_pos|apply (W1 x0 X0)]). split.
  - destruct (C04_shift_conserves_flux false img a 1%Z false false Hp) as [r [E V]]. rewrite E1 in E. injection E as <-. rewrite <- V. unfold total. rewrite Sr1, Se1, <- sumNR_minus.
    refine (Rle_trans _ _ _ (sumNR_abs _ _) _). rewrite <- (sumNR_const (shape img) (err (of_R img) a) Hp). apply sumNR_le. auto.
  - refine (Rle_trans _ (size2 (shape img) (get e1) + size2 (shape img) (fun x => get r1 x - get e1 x)) _ _ _).
    + assert (TM := minkowski (shape img) (fun x => Rabs (get e1 x)) (fun x => Rabs (get r1 x - get e1 x)) ltac:(intros; split; apply Rabs_pos)). cbv beta in TM.
      assert (S1 : forall h, sqrt (sumNR (shape img) (fun i => Rabs (h i) ^ 2)) = size2 (shape img) h) by (intros h; unfold size2; f_equal; apply sumNR_ext; intros; apply pow2_abs).
      rewrite (S1 (get e1)), (S1 (fun x => get r1 x - get e1 x)) in TM. refine (Rle_trans _ _ _ _ TM). unfold size2. apply sqrt_le_1_alt. apply sumNR_le. intros x Hx. rewrite <- (pow2_abs (get r1 x)). apply pow_incr. split; [apply Rabs_pos|].
      replace (get r1 x) with (get e1 x + (get r1 x - get e1 x)) at 1 by ring. apply Rabs_triang.
    + apply Rplus_le_compat; [|apply size2_bound; auto]. rewrite (size2_ext _ (get e1) (fun x => trig_interpR (shape img) (get img) (coord_minus x a))) by auto. apply shift_le; auto.
Qed.
Print Assumptions C135_flux_and_norm.
End Rounded.

(** a five-pixel image there and back by a third of a pixel; with exact operations the error vanishes *)
Example C135_nonvacuous : let img := mk1 5 (fun i => IZR i) in
  exists r1 r2,
    shiftnd_fp (exact_arith false 1 false) (exact_zarith false 1 false) exact_sarith (of_R img) [/ 3] 0 false true = Ok (RealArr r1) /\
    shiftnd_fp (exact_arith false 1 false) (exact_zarith false 1 false) exact_sarith (of_R r1) (map Ropp [/ 3]) 0 false true = Ok (RealArr r2) /\
    forall i, (0 <= i < 5)%Z -> get r2 [i] = IZR i.
Proof.
  cbv zeta. set (img := mk1 5 (fun i => IZR i)).
  assert (HS : rounds 0 exact_sarith). { split; [lra|]. intros x. cbn [exact_sarith sa_rd]. replace (x - x) with 0 by ring. rewrite Rabs_R0. lra. }
  assert (HB : accurate_exp 0 (largest_phase [/ 3] 0 * (1 + 0) ^ (length [/ 3] + 7)) (exact_zarith false 1 false)).
  { intros t _. cbn [exact_zarith za_cis]. replace (Cminus (cis t) (cis t)) with (RtoC 0) by ring. rewrite Cmod_0. lra. }
  destruct (C135_round_trip 0 0 (largest_phase [/ 3] 0 * (1 + 0) ^ (length [/ 3] + 7)) (exact_arith false 1 false) (exact_zarith false 1 false) exact_sarith img [/ 3]) as [r1 [r2 [F1 [F2 [Sh W]]]]]; auto.
  - repeat constructor; lia.
  - left. repeat constructor.
  - apply C103_exact_transforms.
  - apply Rle_refl.
  - exists r1, r2. split; [exact F1|]. split; [exact F2|]. intros i Hi. specialize (W [i] ltac:(constructor; [exact Hi|constructor])).
    assert (Z0 : forall d off, shift_error 0 0 d off 0 (map (fun _ => 0) off) false true = 0).
    { intros d off. unfold shift_error, kernel_error, abs_rounding. replace (fold_right Rplus 0 (map (fun _ => 0) off)) with 0 by (clear; induction off as [|x l IH]; cbn; [auto|rewrite <- IH; ring]).
      replace (1 + 0) with 1 by ring. rewrite !pow1. ring. }
    rewrite !Z0 in W. rewrite Rmult_0_r, Rplus_0_r in W. change (get img [i]) with (IZR i) in W.
    assert (Q := Rle_abs (get r2 [i] - IZR i)). assert (Q2 := Rle_abs (- (get r2 [i] - IZR i))). rewrite Rabs_Ropp in Q2. lra.
Qed.
