(** Properties C01-C09: shiftnd, shift2d, get_ffts *)
From Coq Require Import ZArith Lia List Reals Lra Bool.
From Coquelicot Require Import Complex.
From Verif Require Import Base NDim DFT Kernel Py M_fast_ffts M_shift Spec L_shift.
Import ListNotations.
Open Scope R_scope.

Lemma pick_real rabs r : pick rabs true r = RealArr (amap Re r).  Proof. reflexivity. Qed.

(** *** C01: integer shifts are exact cyclic rolls (times the phase factor) *)
Theorem C01_integer_shift_is_roll :
  forall env (img : arr num) (d : list Z) (phase : R) nthreads usenp rabs,
  pos_shape (shape img) -> length d = ndim img ->
  exists out, shiftnd env (of_num img) (map IZR d) phase nthreads usenp rabs true = Ok (RealArr out) /\
    shape out = shape img /\
    forall x, inb (shape img) x -> get out x = cos phase * nan0 (get (roll img d) x).
Proof.
  intros env img d ph nt np rabs Hp Hd.
  destruct (shiftnd_ok env (of_num img) (map IZR d) ph nt np rabs true Hp) as [r [H1 [H2 H3]]].
  rewrite H1. eexists; split; [reflexivity|]. simpl. split; [exact H2|]. intros x Hx.
  simpl in H3. rewrite H3 by auto. rewrite fit_offset_id by (rewrite map_length; exact Hd).
  change (map IZR d) with (toR d). rewrite shifted_int by auto.
  unfold cnan0. simpl. unfold roll. simpl. rewrite cos_neg. unfold Re; simpl. ring.
Qed.
Print Assumptions C01_integer_shift_is_roll.

Theorem C01_integer_shift_is_roll_complex :
  forall env (img : arr C) (d : list Z) (phase : R) nthreads usenp,
  pos_shape (shape img) -> length d = ndim img ->
  (exists out, shiftnd env (of_C img) (map IZR d) phase nthreads usenp false false = Ok (CplxArr out) /\
    shape out = shape img /\
    forall x, inb (shape img) x -> get out x = Cmult (cis (- phase)) (get (roll img d) x)) /\
  (exists out, shiftnd env (of_C img) (map IZR d) phase nthreads usenp true false = Ok (RealArr out) /\
    shape out = shape img /\
    forall x, inb (shape img) x -> get out x = Cmod (get (roll img d) x)).
Proof.
  intros env img d ph nt np Hp Hd.
  assert (HC : forall x, inb (shape img) x -> shifted (shape img) (fun i => cnan0 (get (of_C img) i)) (fit_offset (map IZR d) (shape img)) ph x = Cmult (cis (- ph)) (get (roll img d) x)).
  { intros x Hx. rewrite fit_offset_id by (rewrite map_length; exact Hd).
    change (map IZR d) with (toR d). rewrite shifted_int by auto. f_equal. unfold cnan0; simpl.
    symmetry. apply surjective_pairing. }
  split.
  - destruct (shiftnd_ok env (of_C img) (map IZR d) ph nt np false false Hp) as [r [H1 [H2 H3]]].
    rewrite H1. eexists; split; [reflexivity|]. split; [exact H2|]. intros x Hx. rewrite H3 by auto. apply HC; auto.
  - destruct (shiftnd_ok env (of_C img) (map IZR d) ph nt np true false Hp) as [r [H1 [H2 H3]]].
    rewrite H1. eexists; split; [reflexivity|]. split; [exact H2|]. intros x Hx. simpl. rewrite H3 by auto.
    simpl. rewrite HC by auto. rewrite Cmod_mult, Cmod_cis. simpl. apply Rmult_1_l.
Qed.
Print Assumptions C01_integer_shift_is_roll_complex.

(** a 2x3 image with a NaN, rolled by one row and minus four columns *)
Definition ex_img : arr num :=
  mk2 2 3 (fun y x => if (Z.eqb y 1 && Z.eqb x 1)%bool then NaN else Fin (IZR (3 * y + x + 1))).
Example C01_instance : exists out,
  shiftnd false (of_num ex_img) [1; -4] 0 1 false false true = Ok (RealArr out) /\
  get out [0; 0]%Z = 0 /\ get out [1; 1]%Z = 3 /\ get out [0; 1]%Z = 6.
Proof.
  destruct (C01_integer_shift_is_roll false ex_img [1; -4]%Z 0 1%Z false false) as [out [H1 [H2 H3]]].
  - repeat constructor.
  - reflexivity.
  - exists out. split; [exact H1|].
    rewrite !H3 by (simpl; lia). rewrite cos_0. unfold roll, roll_src, ex_img, modl, subl; simpl. repeat split; lra.
Qed.

(** *** C02: complex shifts compose and invert *)
Theorem C02_complex_shifts_compose :
  forall env (img : arr C) (a b : list R) (p q : R) nt np,
  pos_shape (shape img) -> length a = ndim img -> length b = ndim img ->
  exists r1 r2 r3,
    shiftnd env (of_C img) a p nt np false false = Ok (CplxArr r1) /\
    shiftnd env (of_C r1) b q nt np false false = Ok (CplxArr r2) /\
    shiftnd env (of_C img) (zipw Rplus a b) (p + q) nt np false false = Ok (CplxArr r3) /\
    aeq r2 r3.
Proof.
  intros env img a b p q nt np Hp Ha Hb.
  destruct (shiftnd_ok env (of_C img) a p nt np false false Hp) as [r1 [H1 [H1s H1v]]].
  assert (Hp1 : pos_shape (shape (of_C r1))) by (simpl; rewrite H1s; exact Hp).
  destruct (shiftnd_ok env (of_C r1) b q nt np false false Hp1) as [r2 [H2 [H2s H2v]]].
  destruct (shiftnd_ok env (of_C img) (zipw Rplus a b) (p + q) nt np false false Hp) as [r3 [H3 [H3s H3v]]].
  exists r1, r2, r3. repeat split; auto.
  - simpl in *. congruence.
  - simpl in H2s, H3s, H1s. intros x Hx. rewrite H2s, H1s in Hx.
    simpl in H2v, H3v, H1v. rewrite H2v by (rewrite H1s; auto). rewrite H3v by auto.
    rewrite H1s. rewrite !fit_offset_id by (rewrite ?zipw_length; unfold ndim in *; lia).
    rewrite <- (shifted_comp _ _ a p b q) by (auto; unfold ndim in *; lia).
    apply shifted_ext. intros y Hy. rewrite H1v by auto.
    rewrite fit_offset_id by auto. symmetry. apply surjective_pairing.
Qed.
Print Assumptions C02_complex_shifts_compose.

Theorem C02_complex_shift_invertible :
  forall env (img : arr C) (a : list R) (p : R) nt np,
  pos_shape (shape img) -> length a = ndim img ->
  exists r1 r2,
    shiftnd env (of_C img) a p nt np false false = Ok (CplxArr r1) /\
    shiftnd env (of_C r1) (map Ropp a) (- p) nt np false false = Ok (CplxArr r2) /\
    aeq r2 img.
Proof.
  intros env img a p nt np Hp Ha.
  destruct (C02_complex_shifts_compose env img a (map Ropp a) p (- p) nt np) as [r1 [r2 [r3 [H1 [H2 [H3 H4]]]]]]; auto.
  { rewrite map_length; auto. }
  exists r1, r2. repeat split; auto.
  - destruct (shiftnd_ok env (of_C img) (zipw Rplus a (map Ropp a)) (p + - p) nt np false false Hp) as [r [E [Es Ev]]].
    rewrite E in H3. inversion H3; subst r3. destruct H4 as [H4 _]. rewrite H4. exact Es.
  - intros x Hx. destruct (shiftnd_ok env (of_C img) (zipw Rplus a (map Ropp a)) (p + - p) nt np false false Hp) as [r [E [Es Ev]]].
    rewrite E in H3. inversion H3; subst r3. destruct H4 as [H4 H5]. rewrite H5 by auto.
    simpl in Es, Ev. rewrite Ev by congruence. rewrite Rplus_opp_r.
    replace (fit_offset (zipw Rplus a (map Ropp a)) (shape img)) with (map (fun _ : Z => 0) (shape img)).
    + rewrite shifted_zero by (auto; congruence). symmetry. apply surjective_pairing.
    + unfold ndim in Ha. clear -Ha. revert Ha. generalize (shape img). intros sh. revert a.
      induction sh as [|n sh IH]; intros [|a0 a] H; simpl in *; try discriminate; auto.
      rewrite <- IH by lia. f_equal. lra.
Qed.
Print Assumptions C02_complex_shift_invertible.

Example C02_nonvacuous : let img := mk2 2 3 (fun y x => (IZR y, IZR x)) in
  pos_shape (shape img) /\ length [1/2; -7/3] = ndim img.
Proof. simpl. split; [repeat constructor; lia|reflexivity]. Qed.

(** *** C03: real shifts compose on odd axes, or when one shift is whole-pixel *)
Lemma shift_real_val env (img : arr R) a nt np rabs : pos_shape (shape img) ->
  exists r, shiftnd env (of_R img) a 0 nt np rabs true = Ok (RealArr r) /\ shape r = shape img /\
    forall x, inb (shape img) x -> get r x = Re (shifted (shape img) (fun i => RtoC (get img i)) (fit_offset a (shape img)) 0 x).
Proof.
  intros Hp. destruct (shiftnd_ok env (of_R img) a 0 nt np rabs true Hp) as [r [H1 [H2 H3]]].
  rewrite H1. eexists. split; [reflexivity|]. split; [exact H2|]. intros x Hx. simpl. rewrite H3 by auto. reflexivity.
Qed.

Definition integral (d : list R) : Prop := exists z : list Z, d = map IZR z.

Theorem C03_real_shifts_compose :
  forall env (img : arr R) (a b : list R) nt np,
  pos_shape (shape img) -> length a = ndim img -> length b = ndim img ->
  Forall (fun n => Z.odd n = true) (shape img) \/ integral a \/ integral b ->
  exists r1 r2 r3,
    shiftnd env (of_R img) a 0 nt np false true = Ok (RealArr r1) /\
    shiftnd env (of_R r1) b 0 nt np false true = Ok (RealArr r2) /\
    shiftnd env (of_R img) (zipw Rplus a b) 0 nt np false true = Ok (RealArr r3) /\
    aeq r2 r3.
Proof.
  intros env img a b nt np Hp Ha Hb Hcase.
  destruct (shift_real_val env img a nt np false Hp) as [r1 [H1 [H1s H1v]]].
  assert (Hp1 : pos_shape (shape r1)) by (rewrite H1s; exact Hp).
  destruct (shift_real_val env r1 b nt np false Hp1) as [r2 [H2 [H2s H2v]]].
  destruct (shift_real_val env img (zipw Rplus a b) nt np false Hp) as [r3 [H3 [H3s H3v]]].
  exists r1, r2, r3. repeat split; auto; [congruence|].
  intros x Hx. rewrite H2s, H1s in Hx.
  rewrite H2v by (rewrite H1s; auto). rewrite H3v by auto. rewrite H1s.
  rewrite fit_offset_id in H1v by auto.
  unfold ndim in *.
  rewrite !fit_offset_id by (rewrite ?zipw_length; lia).
  rewrite <- (Rplus_0_r 0) at 2. change (zipw Rplus a b) with (addR a b).
  rewrite <- (shifted_comp _ _ a 0 b 0) by auto.
  assert (Hint : forall z : list Z, b = map IZR z ->
     Re (shifted (shape img) (fun i => RtoC (get r1 i)) b 0 x) =
     Re (shifted (shape img) (shifted (shape img) (fun i => RtoC (get img i)) a 0) b 0 x)).
  { intros z Hz. subst b. rewrite map_length in Hb. change (map IZR z) with (toR z).
    rewrite !shifted_int by auto. rewrite Ropp_0, cis_0, !Cmult_1_l.
    rewrite H1v; [reflexivity|]. unfold roll_src. apply modl_inb; auto.
    rewrite subl_length, (inb_length _ _ Hx). lia. }
  destruct Hcase as [Ho|[[z Hz]|[z Hz]]].
  - f_equal. apply shifted_ext. intros y Hy. rewrite H1v by auto. apply C_eq_ReIm; [reflexivity|].
    rewrite Im_RtoC. symmetry. apply shifted_real_odd; auto.
  - f_equal. apply shifted_ext. intros y Hy. rewrite H1v by auto. subst a. rewrite map_length in Ha.
    change (map IZR z) with (toR z). rewrite shifted_int by auto. rewrite Ropp_0, cis_0, Cmult_1_l. reflexivity.
  - apply (Hint z Hz).
Qed.
Print Assumptions C03_real_shifts_compose.

Example C03_nonvacuous : let img := mk2 3 5 (fun y x => IZR (y * x)) in
  pos_shape (shape img) /\ length [1/2; -7/3] = ndim img /\ Forall (fun n => Z.odd n = true) (shape img).
Proof. simpl. repeat split; repeat constructor; lia. Qed.

(** On an even axis the default (real) output loses the Nyquist component: a half-pixel shift done twice is not a
    one-pixel shift. *)
Theorem C03_real_shifts_compose_refuted :
  exists (img : arr R) (a b : list R) r1 r2 r3,
    shape img = [2%Z] /\
    shiftnd false (of_R img) a 0 1 false false true = Ok (RealArr r1) /\
    shiftnd false (of_R r1) b 0 1 false false true = Ok (RealArr r2) /\
    shiftnd false (of_R img) (zipw Rplus a b) 0 1 false false true = Ok (RealArr r3) /\
    get r2 [0%Z] = 0 /\ get r3 [0%Z] = -1.
Proof.
  set (img := mk1 2 (fun x => if Z.eqb x 0 then 1 else -1)).
  assert (Hp : pos_shape (shape img)) by (repeat constructor).
  destruct (shift_real_val false img [1/2] 1%Z false false Hp) as [r1 [H1 [H1s H1v]]].
  assert (Hp1 : pos_shape (shape r1)) by (rewrite H1s; exact Hp).
  destruct (shift_real_val false r1 [1/2] 1%Z false false Hp1) as [r2 [H2 [H2s H2v]]].
  destruct (shift_real_val false img (zipw Rplus [1/2] [1/2]) 1%Z false false Hp) as [r3 [H3 [H3s H3v]]].
  exists img, [1/2], [1/2], r1, r2, r3. repeat split; auto.
  - rewrite H2v by (rewrite H1s; simpl; lia). rewrite H1s.
    rewrite (shifted_ext (shape img) _ (fun _ => RtoC 0)).
    + unfold shifted. rewrite Ropp_0, cis_0, Cmult_1_l, Re_sumNC. apply sumNR_const0. intros; simpl; ring.
    + intros y Hy. f_equal. rewrite H1v by auto. apply inb1 in Hy. destruct Hy as [z [-> Hz]].
      unfold shifted. rewrite Ropp_0, cis_0, Cmult_1_l. simpl shape.
      assert (HD : forall t, Dn [2%Z] [t] = Cmult (RtoC (/ 2)) (Cplus 1 (cis (- (PI * t))))).
      { intros t. rewrite Dn_1 by lia. unfold D1. f_equal.
        change 2%Z with (1 + 1)%Z at 1. rewrite sumC_S by lia. change 1%Z with (0 + 1)%Z at 1. rewrite sumC_S by lia.
        rewrite sumC_0 by lia. unfold fftfreq. change (fidx 2 0) with 0%Z. change (fidx 2 1) with (-1)%Z.
        replace (2 * PI * (0 / 2 * t)) with 0 by field.
        replace (2 * PI * (-1 / 2 * t)) with (- (PI * t)) by field. rewrite cis_0. ring. }
      rewrite sumNC_cons. change 2%Z with (1 + 1)%Z at 1. rewrite sumC_S by lia.
      change 1%Z with (0 + 1)%Z at 1. rewrite sumC_S by lia. rewrite sumC_0 by lia.
      rewrite !sumNC_nil. cbn [get img mk1 toR map subR zipw fit_offset shape].
      rewrite !HD. simpl Z.eqb. cbv iota.
      replace (- (PI * (IZR z - 1 / 2 - 0))) with (- (PI * (IZR z - 1 / 2 - 1)) - PI) by ring.
      set (t := - (PI * (IZR z - 1 / 2 - 1))).
      assert (Hc : cis (t - PI) = Copp (cis t)).
      { unfold Rminus. rewrite cis_plus. replace (cis (- PI)) with (RtoC (-1)).
        - apply C_eq_ReIm; unfold Re, Im; simpl; ring.
        - unfold cis. rewrite cos_neg, sin_neg, cos_PI, sin_PI, Ropp_0. reflexivity. }
      rewrite Hc.
      assert (Ht : cos t = 0).
      { assert (E : (z = 0 \/ z = 1)%Z) by lia. unfold t. rewrite cos_neg. destruct E as [-> | ->].
        - replace (PI * (0 - 1 / 2 - 1)) with (- (3 * (PI / 2))) by field. rewrite cos_neg. apply cos_3PI2.
        - replace (PI * (1 - 1 / 2 - 1)) with (- (PI / 2)) by field. rewrite cos_neg. apply cos_PI2. }
      unfold Re; simpl. rewrite Ht. field.
  - rewrite H3v by (simpl; lia). rewrite fit_offset_id by reflexivity.
    replace (zipw Rplus [1 / 2] [1 / 2]) with (toR [1%Z]) by (unfold toR; simpl; f_equal; lra).
    rewrite shifted_int; [|exact Hp|reflexivity|simpl; lia].
    rewrite Ropp_0, cis_0. simpl. ring.
Qed.
Print Assumptions C03_real_shifts_compose_refuted.

(** *** C04: flux and energy *)
Theorem C04_shift_conserves_flux :
  forall env (img : arr R) (a : list R) nt np rabs,
  pos_shape (shape img) ->
  exists r, shiftnd env (of_R img) a 0 nt np rabs true = Ok (RealArr r) /\ total r = total img.
Proof.
  intros env img a nt np rabs Hp.
  destruct (shift_real_val env img a nt np rabs Hp) as [r [H1 [H1s H1v]]].
  exists r. split; auto. unfold total. rewrite H1s.
  rewrite (sumNR_ext _ _ _ (fun i Hi => H1v i Hi)), <- Re_sumNC.
  rewrite shifted_sum by (auto; apply fit_offset_length). rewrite Ropp_0, cis_0, Cmult_1_l, sumNC_RtoC. reflexivity.
Qed.
Print Assumptions C04_shift_conserves_flux.

Theorem C04_complex_shift_conserves_energy :
  forall env (img : arr C) (a : list R) (phase : R) nt np,
  pos_shape (shape img) ->
  exists r, shiftnd env (of_C img) a phase nt np false false = Ok (CplxArr r) /\ energyC r = energyC img.
Proof.
  intros env img a ph nt np Hp.
  destruct (shiftnd_ok env (of_C img) a ph nt np false false Hp) as [r [H1 [H1s H1v]]].
  exists r. split; auto. unfold energyC. simpl in H1s, H1v. rewrite H1s.
  rewrite (sumNR_ext _ _ (fun x => Cmod (shifted (shape img) (fun i => cnan0 (get (of_C img) i)) (fit_offset a (shape img)) ph x) ^ 2)).
  - rewrite shifted_energy by (auto; apply fit_offset_length). apply sumNR_ext. intros i Hi.
    unfold cnan0; simpl. rewrite <- surjective_pairing. reflexivity.
  - intros i Hi. rewrite H1v by auto. reflexivity.
Qed.
Print Assumptions C04_complex_shift_conserves_energy.

Lemma Re_sq_le z : (Re z) ^ 2 <= Cmod z ^ 2.
Proof.
  unfold Cmod, Re. rewrite <- (Rsqr_pow2 (sqrt _)), Rsqr_sqrt by nra. nra.
Qed.
Lemma Cmod_sq_real z : Im z = 0 -> Cmod z ^ 2 = (Re z) ^ 2.
Proof.
  unfold Cmod, Re, Im. intros H. rewrite <- (Rsqr_pow2 (sqrt _)), Rsqr_sqrt by nra. rewrite H. ring.
Qed.

Theorem C04_real_shift_energy :
  forall env (img : arr R) (a : list R) nt np rabs,
  pos_shape (shape img) ->
  exists r, shiftnd env (of_R img) a 0 nt np rabs true = Ok (RealArr r) /\
    energy r <= energy img /\
    (Forall (fun n => Z.odd n = true) (shape img) -> energy r = energy img).
Proof.
  intros env img a nt np rabs Hp.
  destruct (shift_real_val env img a nt np rabs Hp) as [r [H1 [H1s H1v]]].
  exists r. split; auto. unfold energy. rewrite H1s.
  set (S := shifted (shape img) (fun i => RtoC (get img i)) (fit_offset a (shape img)) 0) in *.
  assert (HE : sumNR (shape img) (fun x => Cmod (S x) ^ 2) = sumNR (shape img) (fun i => get img i ^ 2)).
  { unfold S. rewrite shifted_energy by (auto; apply fit_offset_length). apply sumNR_ext. intros i Hi.
    rewrite Cmod_R, <- !Rsqr_pow2. symmetry. apply Rsqr_abs. }
  rewrite (sumNR_ext _ (fun i => get r i ^ 2) (fun i => Re (S i) ^ 2)) by (intros i Hi; rewrite H1v by auto; reflexivity).
  split.
  - rewrite <- HE. apply sumNR_le. intros i Hi. apply Re_sq_le.
  - intros Ho. rewrite <- HE. apply sumNR_ext. intros i Hi. symmetry. apply Cmod_sq_real.
    apply shifted_real_odd; auto. apply fit_offset_length.
Qed.
Print Assumptions C04_real_shift_energy.

Theorem C04_zero_shift_is_identity :
  forall env (img : arr R) nt np rabs,
  pos_shape (shape img) ->
  exists r, shiftnd env (of_R img) (map (fun _ => 0) (shape img)) 0 nt np rabs true = Ok (RealArr r) /\ aeq r img.
Proof.
  intros env img nt np rabs Hp.
  destruct (shift_real_val env img (map (fun _ => 0) (shape img)) nt np rabs Hp) as [r [H1 [H1s H1v]]].
  exists r. split; auto. split; auto. intros x Hx. rewrite H1s in Hx. rewrite H1v by auto.
  rewrite fit_offset_id by apply map_length. rewrite shifted_zero by auto. reflexivity.
Qed.
Print Assumptions C04_zero_shift_is_identity.

Example C04_nonvacuous : let img := mk2 2 3 (fun y x => IZR (y * x)) in
  pos_shape (shape img) /\ total img = 3.
Proof. simpl. split; [repeat constructor; lia|]. unfold total, sumNR, sumNG, sumG; simpl. lra. Qed.

(** *** C05: periodicity in the offset *)
Theorem C05_shift_periodic :
  forall env (img : arr cnum) (a : list R) (m : list Z) (phase : R) nt np rabs rreal,
  pos_shape (shape img) -> length a = ndim img -> length m = ndim img ->
  same_result (shiftnd env img (zipw Rplus a (zipw (fun n k => IZR n * IZR k) (shape img) m)) phase nt np rabs rreal)
              (shiftnd env img a phase nt np rabs rreal).
Proof.
  intros env img a m ph nt np rabs rreal Hp Ha Hm. unfold ndim in *.
  destruct (shiftnd_ok env img (zipw Rplus a (zipw (fun n k => IZR n * IZR k) (shape img) m)) ph nt np rabs rreal Hp) as [r1 [H1 [H1s H1v]]].
  destruct (shiftnd_ok env img a ph nt np rabs rreal Hp) as [r2 [H2 [H2s H2v]]].
  rewrite H1, H2. simpl.
  assert (E : aeq r1 r2).
  { split; [congruence|]. intros x Hx. rewrite H1s in Hx. rewrite H1v, H2v by auto.
    rewrite !fit_offset_id by (rewrite ?zipw_length; lia). apply shifted_period; auto. }
  destruct E as [E1 E2]. unfold pick. destruct rreal, rabs; simpl; split; auto; intros i Hi; simpl; rewrite ?E2; auto.
Qed.
Print Assumptions C05_shift_periodic.

Example C05_nonvacuous : let img := of_num ex_img in
  pos_shape (shape img) /\ length [1/2; -7/3] = ndim img /\ length [3; -1]%Z = ndim img.
Proof. simpl. repeat split; repeat constructor; lia. Qed.

(** *** C06: linearity *)
Definition lincomb (s t : R) (x y : arr R) : arr R := Arr (shape x) (fun i => s * get x i + t * get y i).

Theorem C06_shift_linear :
  forall env (x y : arr R) (s t : R) (d : list R) (phase : R) nt np rabs,
  pos_shape (shape x) -> shape y = shape x ->
  exists rx ry rz,
    shiftnd env (of_R x) d phase nt np rabs true = Ok (RealArr rx) /\
    shiftnd env (of_R y) d phase nt np rabs true = Ok (RealArr ry) /\
    shiftnd env (of_R (lincomb s t x y)) d phase nt np rabs true = Ok (RealArr rz) /\
    aeq rz (lincomb s t rx ry).
Proof.
  intros env x y s t d ph nt np rabs Hp Hs.
  assert (Hpy : pos_shape (shape y)) by congruence.
  destruct (shiftnd_ok env (of_R x) d ph nt np rabs true Hp) as [rx [H1 [H1s H1v]]].
  destruct (shiftnd_ok env (of_R y) d ph nt np rabs true Hpy) as [ry [H2 [H2s H2v]]].
  destruct (shiftnd_ok env (of_R (lincomb s t x y)) d ph nt np rabs true Hp) as [rz [H3 [H3s H3v]]].
  simpl in *. rewrite Hs in *.
  do 3 eexists. split; [exact H1|]. split; [exact H2|]. split; [exact H3|].
  split; simpl; [congruence|].
  intros i Hi. rewrite H3s in Hi. rewrite H1v, H2v, H3v by auto.
  rewrite (shifted_ext _ _ (fun i => Cplus (Cmult (RtoC s) (cnan0 (Fin (get x i), Fin 0))) (Cmult (RtoC t) (cnan0 (Fin (get y i), Fin 0))))).
  - rewrite shifted_lin. rewrite Re_plus, !Re_scal. reflexivity.
  - intros j Hj. apply C_eq_ReIm; unfold cnan0, Re, Im; simpl; ring.
Qed.
Print Assumptions C06_shift_linear.

Example C06_nonvacuous : let x := mk2 2 3 (fun y x => IZR (y * x)) in let y := mk2 2 3 (fun y x => IZR (y - x)) in
  pos_shape (shape x) /\ shape y = shape x.
Proof. simpl. repeat split; repeat constructor; lia. Qed.

(** *** C07: shift2d is shiftnd with swapped arguments *)
Theorem C07_shift2d_is_shiftnd :
  forall env (img : arr cnum) ny nx (deltax deltay phase : R) nt np rabs rreal,
  shape img = [ny; nx] ->
  same_result (shift2d env img deltax deltay phase nt np rabs rreal)
              (shiftnd env img [deltay; deltax] phase nt np rabs rreal).
Proof.
  intros env img ny nx dx dy ph nt np rabs rreal Hs.
  unfold shift2d, shiftnd. destruct (get_ffts env nt np) as [fw iv] eqn:E.
  assert (Hf := get_ffts_fwd env nt np). assert (Hi := get_ffts_inv env nt np). rewrite E in Hf, Hi. simpl in Hf, Hi.
  rewrite Hs. simpl. unfold check_freqs, check_fft. simpl.
  destruct (Z.eqb nx 0) eqn:Ex, (Z.eqb ny 0) eqn:Ey; simpl; auto.
  destruct ((0 <? ny)%Z && ((0 <? nx)%Z && true)); simpl; auto.
  set (A := Arr [ny; nx] _). set (B := Arr [ny; nx] _).
  assert (E1 : aeq (iv A) (iv B)).
  { split; [rewrite !(proj1 (Hi _)); reflexivity|]. intros i Hin. rewrite !(proj2 (Hi _)).
    apply idft_ext. intros k Hk. unfold A, B; simpl. f_equal.
    apply inb2 in Hk. destruct Hk as [y [x [-> [Hy Hx]]]]. f_equal. simpl. ring. }
  destruct E1 as [E1 E2]. unfold pick. destruct rreal, rabs; simpl; split; auto; intros i Hin; simpl; rewrite ?E2; auto.
Qed.
Print Assumptions C07_shift2d_is_shiftnd.

Theorem C07_shift2d_rejects_non_2d :
  forall env (img : arr cnum) deltax deltay phase nt np rabs rreal,
  ndim img <> 2%nat -> shift2d env img deltax deltay phase nt np rabs rreal = Raise ValueError.
Proof.
  intros. unfold shift2d. destruct (get_ffts env nt np). unfold ndim in *.
  destruct (shape img) as [|n1 [|n2 [|n3 l]]]; simpl in *; auto; congruence.
Qed.
Print Assumptions C07_shift2d_rejects_non_2d.

Example C07_nonvacuous : shape (of_num ex_img) = [2; 3]%Z /\ ndim (of_R (mk1 4 (fun x => IZR x))) <> 2%nat.
Proof. split; [reflexivity|discriminate]. Qed.

(** *** C08: NaN handling, shape, flags, offset length *)
Theorem C08_nan_is_zero :
  forall env (img : arr num) d phase nt np rabs rreal,
  same_result (shiftnd env (of_num img) d phase nt np rabs rreal)
              (shiftnd env (of_R (amap nan0 img)) d phase nt np rabs rreal).
Proof.
  intros. unfold shiftnd. destruct (get_ffts env nt np) as [fw iv] eqn:E.
  simpl. unfold check_freqs, check_fft.
  destruct (existsb _ _); simpl; auto. destruct (pos_shapeb _); simpl; auto.
  unfold pick. destruct rreal; [|destruct rabs]; simpl; apply aeq_refl.
Qed.
Print Assumptions C08_nan_is_zero.

Theorem C08_shape_and_flags :
  forall env (img : arr cnum) d phase nt np,
  pos_shape (shape img) ->
  exists r : arr C,
    shape r = shape img /\
    shiftnd env img d phase nt np false false = Ok (CplxArr r) /\
    (forall rabs, shiftnd env img d phase nt np rabs true = Ok (RealArr (amap Re r))) /\
    shiftnd env img d phase nt np true false = Ok (RealArr (amap Cmod r)).
Proof.
  intros env img d ph nt np Hp. unfold shiftnd. destruct (get_ffts env nt np) as [fw iv] eqn:E.
  assert (Hi := get_ffts_inv env nt np). rewrite E in Hi. simpl in Hi.
  rewrite check_freqs_ok, check_fft_ok by auto. simpl.
  refine (ex_intro _ _ (conj _ (conj eq_refl (conj (fun _ => eq_refl) eq_refl)))). apply Hi.
Qed.
Print Assumptions C08_shape_and_flags.

Lemma firstn_skip_fit d sh : fit_offset (firstn (length sh) d) sh = fit_offset d sh.
Proof. revert d; induction sh as [|n sh IH]; intros [|d0 d]; simpl; auto. f_equal. apply IH. Qed.
Lemma fit_app_zero d k sh : fit_offset (d ++ repeat 0 k) sh = fit_offset d sh.
Proof.
  revert d k; induction sh as [|n sh IH]; intros [|d0 d] k; simpl; auto.
  - destruct k as [|k]; simpl; auto. f_equal. specialize (IH [] k). simpl in IH. exact IH.
  - f_equal. apply IH.
Qed.

Theorem C08_offset_length :
  forall env (img : arr cnum) d k phase nt np rabs rreal,
  pos_shape (shape img) ->
  same_result (shiftnd env img (firstn (ndim img) d) phase nt np rabs rreal) (shiftnd env img d phase nt np rabs rreal) /\
  same_result (shiftnd env img (d ++ repeat 0 k) phase nt np rabs rreal) (shiftnd env img d phase nt np rabs rreal).
Proof.
  intros env img d k ph nt np rabs rreal Hp.
  assert (G : forall d1 d2, fit_offset d1 (shape img) = fit_offset d2 (shape img) ->
     same_result (shiftnd env img d1 ph nt np rabs rreal) (shiftnd env img d2 ph nt np rabs rreal)).
  { intros d1 d2 Hd.
    destruct (shiftnd_ok env img d1 ph nt np rabs rreal Hp) as [r1 [H1 [H1s H1v]]].
    destruct (shiftnd_ok env img d2 ph nt np rabs rreal Hp) as [r2 [H2 [H2s H2v]]].
    rewrite H1, H2. simpl.
    assert (E : aeq r1 r2).
    { split; [congruence|]. intros x Hx. rewrite H1s in Hx. rewrite H1v, H2v, Hd by auto. reflexivity. }
    destruct E as [E1 E2]. unfold pick. destruct rreal, rabs; simpl; split; auto; intros i Hi; simpl; rewrite ?E2; auto. }
  split; apply G; [apply firstn_skip_fit|apply fit_app_zero].
Qed.
Print Assumptions C08_offset_length.

Example C08_nonvacuous : pos_shape (shape (of_num ex_img)) /\ any isnan ex_img = true.
Proof. split; [repeat constructor; lia|reflexivity]. Qed.

(** *** C09: FFT backends *)
Theorem C09_backends_agree :
  forall env nt np env' nt' np' (a : arr C),
  let '(fftn, ifftn) := get_ffts env nt np in
  let '(fftn', ifftn') := get_ffts env' nt' np' in
  aeq (fftn a) (fftn' a) /\ aeq (ifftn a) (ifftn' a).
Proof.
  intros. destruct (get_ffts env nt np) as [f g] eqn:E1. destruct (get_ffts env' nt' np') as [f' g'] eqn:E2.
  assert (H1 := get_ffts_fwd env nt np a). assert (H2 := get_ffts_inv env nt np a).
  assert (H3 := get_ffts_fwd env' nt' np' a). assert (H4 := get_ffts_inv env' nt' np' a).
  rewrite E1 in *. rewrite E2 in *. simpl in *. destruct H1, H2, H3, H4.
  split; (split; [congruence|]); intros; congruence.
Qed.
Print Assumptions C09_backends_agree.

Theorem C09_transform_definition_and_roundtrip :
  forall env nt np (a : arr C), pos_shape (shape a) ->
  let '(fftn, ifftn) := get_ffts env nt np in
  shape (fftn a) = shape a /\
  (forall k, inb (shape a) k -> get (fftn a) k =
     sumNC (shape a) (fun y => Cmult (get a y) (cis (- (2 * PI * phZ (shape a) k y))))) /\
  aeq (ifftn (fftn a)) a /\ aeq (fftn (ifftn a)) a.
Proof.
  intros env nt np a Hp. destruct (get_ffts env nt np) as [f g] eqn:E1.
  assert (H1 := get_ffts_fwd env nt np). assert (H2 := get_ffts_inv env nt np). rewrite E1 in *. simpl in *.
  split; [apply H1|]. split; [intros; apply H1|].
  split.
  - split; [rewrite (proj1 (H2 _)), (proj1 (H1 _)); auto|].
    intros i Hi. rewrite (proj1 (H2 _)), (proj1 (H1 _)) in Hi.
    rewrite (proj2 (H2 _)), (proj1 (H1 _)).
    rewrite (idft_ext _ _ (dft (shape a) (get a))) by (intros; apply H1).
    rewrite idft_dft by (auto; apply inb_length; auto). rewrite modl_small; auto.
  - split; [rewrite (proj1 (H1 _)), (proj1 (H2 _)); auto|].
    intros i Hi. rewrite (proj1 (H1 _)), (proj1 (H2 _)) in Hi.
    rewrite (proj2 (H1 _)), (proj1 (H2 _)).
    rewrite (dft_ext _ _ (idft (shape a) (get a))) by (intros; apply H2).
    rewrite dft_idft by (auto; apply inb_length; auto). rewrite modl_small; auto.
Qed.
Print Assumptions C09_transform_definition_and_roundtrip.

Example C09_nonvacuous : pos_shape (shape (mk2 2 3 (fun y x => (IZR y, IZR x) : C))).
Proof. repeat constructor; lia. Qed.
