(** C136: register_images with every operation rounded, on noisy images with any sub-pixel offset *)
From Coq Require Import ZArith Lia List Reals Lra Bool.
From Coquelicot Require Import Complex.
From Verif Require Import Base NDim DFT Kernel Num Py Sum2 M_fast_ffts M_shift M_chi2 Arg M_rounding M_rounding2 M_rounding3 M_rounding4 M_rounding6 M_rounding7 M_float
  Spec L_shift Spec2 Spec3 Spec4 L_chi2shift L_fshift P_xcorr P_xcorr2 P_xcorr3 M_register L_register L_register2 L_register3 P_register P_register2 P_register3 P_register4 P_rounding P_rounding3 P_rounding4 P_rounding7 P_noise P_rounding2 L_rounding3 L_rounding6 L_rounding7 L_float P_float P_float2 P_rounding6 P_float3 P_float6 P_float7 L_iterzoom2 L_accuracy P_accuracy P_accuracy2 P_accuracy3.
Import ListNotations.
Open Scope R_scope.

(** a node inside the fine grid *)
Lemma inner_window u c s : 2 < u -> Rabs (IZR s / u - c) <= 3 / 4 - 1 / u -> fine_window u c s.
Proof.
  intros U H. unfold fine_window. assert (Rd := roundR_spec (c * u)). set (R0 := roundR (c * u)) in *.
  assert (Hc := ceilR_spec (u * (3 / 2))). set (L := ceilR (u * (3 / 2))) in *.
  assert (K : Rabs (IZR s - c * u) <= 3 / 4 * u - 1).
  { replace (IZR s - c * u) with (u * (IZR s / u - c)) by (field; lra). rewrite Rabs_mult, (Rabs_right u) by lra.
    replace (3 / 4 * u - 1) with (u * (3 / 4 - 1 / u)) by (field; lra). apply Rmult_le_compat_l; lra. }
  assert (Q : (-(L - 1) <= 2 * (s - R0) <= L - 1)%Z).
  { assert (IZR (2 * (s - R0)) <= IZR (L - 1) /\ IZR (- (L - 1)) <= IZR (2 * (s - R0))).
    { rewrite !opp_IZR, mult_IZR, !minus_IZR. unfold Rabs in K, Rd. destruct (Rcase_abs _) in K; destruct (Rcase_abs _) in Rd; lra. }
    destruct H0. split; apply le_IZR; auto. }
  Z.to_euclidean_division_equations; lia.
Qed.
Lemma node_near u t c0 : 2 < u -> Rabs (t - c0) <= 3 / 4 - 3 / (2 * u) -> exists s : Z, Rabs (t - IZR s / u) <= 1 / (2 * u) /\ Rabs (IZR s / u - c0) <= 3 / 4 - 1 / u.
Proof.
  intros Hu H. assert (AR := archimed (t * u - 1 / 2)). set (z := up (t * u - 1 / 2)) in *. destruct AR as [R1 R2]. exists z.
  assert (W : Rabs (t - IZR z / u) <= 1 / (2 * u)).
  { replace (t - IZR z / u) with ((t * u - IZR z) * / u) by (field; lra). rewrite Rabs_mult, (Rabs_right (/ u)) by (left; apply Rinv_0_lt_compat; lra).
    replace (1 / (2 * u)) with (1 / 2 * / u) by (field; lra). apply Rmult_le_compat_r; [left; apply Rinv_0_lt_compat; lra|]. apply Rabs_le. lra. }
  split; [exact W|]. replace (IZR z / u - c0) with (- (t - IZR z / u) + (t - c0)) by ring. refine (Rle_trans _ _ _ (Rabs_triang _ _) _). rewrite Rabs_Ropp.
  assert (3 / (2 * u) - 1 / (2 * u) = 1 / u) by (field; lra). lra.
Qed.
Lemma sqrt_slack X m e : 0 <= X -> 0 <= m -> 0 <= e -> X ^ 2 <= m ^ 2 + 4 * e -> X <= m + 2 * sqrt e.
Proof.
  intros HX Hm He H. assert (S := sqrt_pos e). assert (Q := sqrt_sqrt e He). apply Rsqr_incr_0_var; [|lra]. unfold Rsqr.
  replace ((m + 2 * sqrt e) * (m + 2 * sqrt e)) with (m ^ 2 + 4 * (sqrt e * sqrt e) + 4 * (m * sqrt e)) by ring. rewrite Q.
  assert (0 <= m * sqrt e) by (apply Rmult_le_pos; auto). replace (X * X) with (X ^ 2) by ring. lra.
Qed.
(** an offset whose correlation is within 2e of the correlation of another is, up to a unit factor, almost as good a match *)
Lemma match_near ny nx f1 f2 y x s t e : (0 < ny)%Z -> (0 < nx)%Z -> 0 <= e ->
  Cmod (rcc ny nx f1 f2 s t) <= Cmod (rcc ny nx f1 f2 y x) + 2 * e ->
  exists c, Cmod c = 1 /\ mismatch_phase ny nx f1 f2 c y x ^ 2 = norm2 ny nx f1 ^ 2 + norm2 ny nx f2 ^ 2 - 2 * Cmod (rcc ny nx f1 f2 y x) /\
    mismatch_phase ny nx f1 f2 c y x <= mismatch ny nx f1 f2 s t + 2 * sqrt e.
Proof.
  intros Hy Hx He M. destruct (best_phase ny nx Hy Hx f1 f2 y x) as [c [Hc Ec]]. exists c. split; [exact Hc|]. split; [exact Ec|].
  apply sqrt_slack; try apply sqrt_pos; auto. rewrite Ec, <- mismatch_phase_1. rewrite mismatch_phase_sq by (auto || apply Cmod_1). set (r := rcc ny nx f1 f2 s t) in *.
  assert (Q : Re (Cmult (Cconj (RtoC 1)) r) <= Cmod r).
  { replace (Cmult (Cconj (RtoC 1)) r) with r by (destruct r; unfold Cmult, Cconj, RtoC; cbn; f_equal; ring). unfold Cmod, Re. refine (Rle_trans _ _ _ (Rle_abs _) _). rewrite <- sqrt_Rsqr_abs. apply sqrt_le_1_alt. unfold Rsqr. assert (T := pow2_ge_0 (snd r)). cbn [pow] in *. lra. }
  lra.
Qed.

(** the error along each axis, from the bounds on pairs of frequencies *)
Lemma axis_bounds ny nx f1 y x ty tx B : (3 <= ny)%Z -> (3 <= nx)%Z ->
  (forall k l k' l', (0 <= k < ny)%Z -> (0 <= l < nx)%Z -> (0 <= k' < ny)%Z -> (0 <= l' < nx)%Z ->
     2 * Rabs (sin (PI * ((fftfreq ny k - fftfreq ny k') * (y - ty) + (fftfreq nx l - fftfreq nx l') * (x - tx)))) *
       (Cmod (dft [ny; nx] (fun p => RtoC (img2 f1 p)) [k; l]) * Cmod (dft [ny; nx] (fun p => RtoC (img2 f1 p)) [k'; l'])) <=
     B * (Cmod (dft [ny; nx] (fun p => RtoC (img2 f1 p)) [k; l]) + Cmod (dft [ny; nx] (fun p => RtoC (img2 f1 p)) [k'; l']))) ->
  0 <= B ->
  let Fy := Cmod (sumC ny (fun i => sumC nx (fun j => Cmult (RtoC (f1 i j)) (cis (- (2 * PI * (IZR i / IZR ny))))))) in
  let Fx := Cmod (sumC ny (fun i => sumC nx (fun j => Cmult (RtoC (f1 i j)) (cis (- (2 * PI * (IZR j / IZR nx))))))) in
  let F0 := Rabs (pixel_sum ny nx f1) in
  Rabs (sin (2 * PI * (y - ty) / IZR ny)) * Fy <= B /\
  Rabs (sin (2 * PI * (x - tx) / IZR nx)) * Fx <= B /\
  2 * Rabs (sin (PI * (y - ty) / IZR ny)) * (Fy * F0) <= B * (Fy + F0) /\
  2 * Rabs (sin (PI * (x - tx) / IZR nx)) * (Fx * F0) <= B * (Fx + F0).
Proof.
  intros Hy Hx Q B0 Fy Fx F0. 
  set (F := fun k l => dft [ny; nx] (fun p => RtoC (img2 f1 p)) [k; l]).
  assert (Q2 : forall k l k' l', (0 <= k < ny)%Z -> (0 <= l < nx)%Z -> (0 <= k' < ny)%Z -> (0 <= l' < nx)%Z ->
        2 * Rabs (sin (PI * ((fftfreq ny k - fftfreq ny k') * (y - ty) + (fftfreq nx l - fftfreq nx l') * (x - tx)))) * (Cmod (F k l) * Cmod (F k' l')) <= B * (Cmod (F k l) + Cmod (F k' l'))) by exact Q.
  clear Q. rename Q2 into Q.
  assert (f0 : forall n, (3 <= n)%Z -> fftfreq n 0 = 0).
  { intros n Hn. unfold fftfreq, fidx. destruct (Z.leb_spec 0 ((n - 1) / 2)); [unfold Rdiv; ring|exfalso; Z.to_euclidean_division_equations; lia]. }
  assert (fr1 : forall n, (3 <= n)%Z -> fftfreq n 1 = 1 / IZR n).
  { intros n Hn. unfold fftfreq, fidx. destruct (Z.leb_spec 1 ((n - 1) / 2)); [reflexivity|exfalso; Z.to_euclidean_division_equations; lia]. }
  assert (frm : forall n, (3 <= n)%Z -> fftfreq n (n - 1) = - (1 / IZR n)).
  { intros n Hn. unfold fftfreq, fidx. destruct (Z.leb_spec (n - 1) ((n - 1) / 2)); [exfalso; Z.to_euclidean_division_equations; lia|]. replace (n - 1 - n)%Z with (-1)%Z by lia. unfold Rdiv. ring. }
  assert (NY : IZR ny <> 0) by (apply IZR_neq0; lia). assert (NX : IZR nx <> 0) by (apply IZR_neq0; lia).
  assert (EF : forall k l, F k l = sumC ny (fun i => sumC nx (fun j => Cmult (RtoC (f1 i j)) (cis (- (2 * PI * (IZR k * IZR i / IZR ny + IZR l * IZR j / IZR nx))))))).
  { intros k l. unfold F, dft. rewrite sumNC_cons. apply sumC_ext. intros i _. rewrite sumNC_cons. apply sumC_ext. intros j _. rewrite sumNC_nil. cbn [img2]. f_equal. f_equal. cbn [phZ]. ring. }
  assert (Ey : Cmod (F 1%Z 0%Z) = Fy) by (rewrite EF; unfold Fy; f_equal; apply sumC_ext; intros i _; apply sumC_ext; intros j _; f_equal; f_equal; unfold Rdiv; ring).
  assert (Ex : Cmod (F 0%Z 1%Z) = Fx) by (rewrite EF; unfold Fx; f_equal; apply sumC_ext; intros i _; apply sumC_ext; intros j _; f_equal; f_equal; unfold Rdiv; ring).
  assert (E0 : Cmod (F 0%Z 0%Z) = F0).
  { rewrite EF. unfold F0. rewrite <- Cmod_R. f_equal. unfold pixel_sum. rewrite <- sumC_RtoC. apply sumC_ext. intros i _. rewrite <- sumC_RtoC. apply sumC_ext. intros j _.
    replace (- (2 * PI * (IZR 0 * IZR i / IZR ny + IZR 0 * IZR j / IZR nx))) with 0 by (unfold Rdiv; ring). rewrite cis_0. ring. }
  assert (CJ : forall k l k' l', (forall i j, (0 <= i < ny)%Z -> (0 <= j < nx)%Z -> cis (- (2 * PI * (IZR k' * IZR i / IZR ny + IZR l' * IZR j / IZR nx))) = Cconj (cis (- (2 * PI * (IZR k * IZR i / IZR ny + IZR l * IZR j / IZR nx))))) -> Cmod (F k' l') = Cmod (F k l)).
  { intros k l k' l' H. rewrite !EF. rewrite <- (Cmod_conj' (sumC ny (fun i => sumC nx (fun j => Cmult (RtoC (f1 i j)) (cis (- (2 * PI * (IZR k * IZR i / IZR ny + IZR l * IZR j / IZR nx)))))))).
    f_equal. rewrite Cconj_sumC. apply sumC_ext. intros i Hi. rewrite Cconj_sumC. apply sumC_ext. intros j Hj. rewrite H by auto. unfold Cconj, RtoC, Cmult. cbn [fst snd]. f_equal; ring. }
  assert (Ey' : Cmod (F (ny - 1)%Z 0%Z) = Fy).
  { rewrite <- Ey. apply CJ. intros i j _ _. rewrite <- cis_opp_conj. 
    replace (- (2 * PI * (IZR (ny - 1) * IZR i / IZR ny + IZR 0 * IZR j / IZR nx))) with (- - (2 * PI * (IZR 1 * IZR i / IZR ny + IZR 0 * IZR j / IZR nx)) + 2 * PI * IZR (- i)) by (rewrite minus_IZR, opp_IZR; field; auto).
    apply cis_period. }
  assert (Ex' : Cmod (F 0%Z (nx - 1)%Z) = Fx).
  { rewrite <- Ex. apply CJ. intros i j _ _. rewrite <- cis_opp_conj. 
    replace (- (2 * PI * (IZR 0 * IZR i / IZR ny + IZR (nx - 1) * IZR j / IZR nx))) with (- - (2 * PI * (IZR 0 * IZR i / IZR ny + IZR 1 * IZR j / IZR nx)) + 2 * PI * IZR (- j)) by (rewrite minus_IZR, opp_IZR; field; auto).
    apply cis_period. }
  assert (HALF : forall s G, 0 <= G -> 2 * Rabs s * (G * G) <= B * (G + G) -> Rabs s * G <= B).
  { intros s G G0 H. destruct (Rle_lt_or_eq_dec _ _ G0) as [P|P]; [|rewrite <- P; lra]. apply (Rmult_le_reg_r (2 * G)); [lra|]. replace (Rabs s * G * (2 * G)) with (2 * Rabs s * (G * G)) by ring. lra. }
  assert (Fy0 : 0 <= Fy) by apply Cmod_ge_0. assert (Fx0 : 0 <= Fx) by apply Cmod_ge_0.
  split; [|split; [|split]].
  - specialize (Q 1%Z 0%Z (ny - 1)%Z 0%Z ltac:(lia) ltac:(lia) ltac:(lia) ltac:(lia)). rewrite Ey, Ey', fr1, frm in Q by auto.
    apply HALF; auto. replace (2 * PI * (y - ty) / IZR ny) with (PI * ((1 / IZR ny - - (1 / IZR ny)) * (y - ty) + (fftfreq nx 0 - fftfreq nx 0) * (x - tx))) by (field; auto). exact Q.
  - specialize (Q 0%Z 1%Z 0%Z (nx - 1)%Z ltac:(lia) ltac:(lia) ltac:(lia) ltac:(lia)). rewrite Ex, Ex', fr1, frm in Q by auto.
    apply HALF; auto. replace (2 * PI * (x - tx) / IZR nx) with (PI * ((fftfreq ny 0 - fftfreq ny 0) * (y - ty) + (1 / IZR nx - - (1 / IZR nx)) * (x - tx))) by (field; auto). exact Q.
  - specialize (Q 1%Z 0%Z 0%Z 0%Z ltac:(lia) ltac:(lia) ltac:(lia) ltac:(lia)). rewrite Ey, E0, fr1, !f0 in Q by auto.
    replace (PI * (y - ty) / IZR ny) with (PI * ((1 / IZR ny - 0) * (y - ty) + (0 - 0) * (x - tx))) by (field; auto). exact Q.
  - specialize (Q 0%Z 1%Z 0%Z 0%Z ltac:(lia) ltac:(lia) ltac:(lia) ltac:(lia)). rewrite Ex, E0, fr1, !f0 in Q by auto.
    replace (PI * (x - tx) / IZR nx) with (PI * ((0 - 0) * (y - ty) + (1 / IZR nx - 0) * (x - tx))) by (field; auto). exact Q.
Qed.
Lemma sin_step a b : Rabs (sin a) <= Rabs (sin b) + Rabs (a - b).
Proof.
  assert (L0 : forall h, 0 <= h -> Rabs (sin h) <= h).
  { intros h P. destruct (Rle_lt_or_eq_dec _ _ P) as [P'|<-]; [|rewrite sin_0, Rabs_R0; lra].
    apply Rabs_le. split; [|left; apply sin_lt_x; auto]. destruct (Rle_lt_dec h PI) as [K|K]; [assert (0 <= sin h) by (apply sin_ge_0; lra); lra|].
    assert (S := SIN_bound h). assert (PI > 1) by (assert (T := PI2_1); lra). lra. }
  assert (L : forall h, Rabs (sin h) <= Rabs h).
  { intros h. destruct (Rle_lt_dec 0 h) as [P|P]; [rewrite (Rabs_right h) by lra; auto|].
    rewrite (Rabs_left h) by lra. rewrite <- (Rabs_Ropp (sin h)), <- sin_neg. apply L0. lra. }
  replace a with (b + (a - b)) at 1 by ring. rewrite sin_plus. refine (Rle_trans _ _ _ (Rabs_triang _ _) _). rewrite !Rabs_mult.
  assert (C1 : Rabs (cos (a - b)) <= 1) by (apply Rabs_le; apply COS_bound). assert (C2 : Rabs (cos b) <= 1) by (apply Rabs_le; apply COS_bound).
  apply Rplus_le_compat.
  - rewrite <- (Rmult_1_r (Rabs (sin b))) at 2. apply Rmult_le_compat_l; [apply Rabs_pos|exact C1].
  - rewrite <- (Rmult_1_l (Rabs (a - b))). apply Rmult_le_compat; try apply Rabs_pos; auto.
Qed.

(** no exact answer has to be singled out: any true offset near the coarse estimate is found up to noise, grid step and rounding *)
Theorem C136_near_coarse :
  forall A A' B S eps T mu im1 im2 u ret_err zeromean maxoff ny nx,
  shape im1 = [ny; nx] -> shape im2 = [ny; nx] -> (2 <= ny)%Z -> (2 <= nx)%Z -> mo_ok maxoff -> 2 < u ->
  accurate eps [ny; nx] A -> accurate eps [ny * 2; nx * 2]%Z A' -> accurate_zoom eps T [ny; nx] B -> accurate_scalar eps (Z.to_nat (ny * nx)) S -> eps <= 1 / 2 ->
  rounds mu S -> mu <= 1 / 4 ->
  halves_exact S (ny + nx + ceilR (u * (3 / 2))) -> grid_unchanged S u ny -> grid_unchanged S u nx ->
  PI * reach ny * (1 + mu) ^ 12 <= T -> PI * reach nx * (1 + mu) ^ 12 <= T ->
  let f1 := prep zeromean im1 ny nx in let f2 := prep zeromean im2 ny nx in
  exists (a b : Z) y x dx dy e,
    register_images_fp A A' B S im1 im2 u ret_err zeromean maxoff = Ok (nums [dx; dy] ++ (if ret_err : bool then nums [e; e] else [])) /\
    Rabs (dy - y) <= offset_error mu ny /\ Rabs (dx - x) <= offset_error mu nx /\ Rabs (e - 1 / u) <= mu / u /\
    (- ny <= a < ny)%Z /\ (- nx <= b < nx)%Z /\
    (forall s t, within maxoff s -> within maxoff t ->
      Cmod (rcc ny nx f1 f2 (IZR s / 2) (IZR t / 2)) <= Cmod (rcc ny nx f1 f2 (IZR a / 2) (IZR b / 2)) + 2 * peak_error eps zeromean im1 im2 ny nx) /\
    exists c : C, Cmod c = 1 /\
    forall ty tx, near_coarse ny u (IZR a / 2) ty -> near_coarse nx u (IZR b / 2) tx ->
      let M := mismatch ny nx f1 f2 ty tx + PI / u * norm2 ny nx f1 + 2 * sqrt (fine_error eps mu zeromean im1 im2 ny nx) in
      mismatch_phase ny nx f1 f2 c y x <= M /\
      let F k l := Cmod (dft [ny; nx] (fun p => RtoC (img2 f1 p)) [k; l]) in
      let N := sqrt (IZR (ny * nx)) * (mismatch ny nx f1 f2 ty tx + M) in
      forall k l k' l', (0 <= k < ny)%Z -> (0 <= l < nx)%Z -> (0 <= k' < ny)%Z -> (0 <= l' < nx)%Z ->
        2 * Rabs (sin (PI * ((fftfreq ny k - fftfreq ny k') * (y - ty) + (fftfreq nx l - fftfreq nx l') * (x - tx)))) * (F k l * F k' l') <= N * (F k l + F k' l').
Proof.
  intros A A' B S eps T mu im1 im2 u re zm mo ny nx H1 H2 Hy Hx Hm Hu HA HA' HB HS He Hmu Hmu4 Hh G1 G2 T1 T2 f1 f2.
  assert (Hy' : (0 < ny)%Z) by lia. assert (Hx' : (0 < nx)%Z) by lia.
  destruct (C123_register_images A A' B S eps T mu im1 im2 u re zm mo ny nx H1 H2 Hy' Hx' Hm Hu HA HA' HB HS He Hmu Hmu4 Hh G1 G2 T1 T2)
    as [a [b [C0 [D0 [dx [dy [e [E [WC [WD [Ey [Ex [Ee [Ra [Rb [_ [_ [M1 M2]]]]]]]]]]]]]]]]]].
  fold f1 f2 in M1, M2. set (fe := fine_error eps mu zm im1 im2 ny nx) in *.
  assert (FE : 0 <= fe) by (specialize (M2 C0 D0 WC WD); lra).
  assert (Ny : (ny =? 1)%Z = false) by (apply Z.eqb_neq; lia). assert (Nx : (nx =? 1)%Z = false) by (apply Z.eqb_neq; lia). rewrite Ny in Ey. rewrite Nx in Ex.
  exists a, b, (IZR C0 / u), (IZR D0 / u), dx, dy, e.
  split; [exact E|]. split; [exact Ey|]. split; [exact Ex|]. split; [exact Ee|]. split; [exact Ra|]. split; [exact Rb|]. split; [exact M1|].
  destruct (best_phase ny nx Hy' Hx' f1 f2 (IZR C0 / u) (IZR D0 / u)) as [c [Hc Ec]]. exists c. split; [exact Hc|].
  intros ty tx [k Ky] [l Lx] M.
  destruct (node_near u _ _ Hu Ky) as [s [S1 S2]]. destruct (node_near u _ _ Hu Lx) as [t [Q1 Q2]].
  assert (P : mismatch_phase ny nx f1 f2 c (IZR C0 / u) (IZR D0 / u) <= M).
  { apply Rle_trans with (mismatch ny nx f1 f2 (IZR s / u) (IZR t / u) + 2 * sqrt fe).
    - destruct (match_near ny nx f1 f2 (IZR C0 / u) (IZR D0 / u) (IZR s / u) (IZR t / u) fe Hy' Hx' FE (M2 s t (inner_window _ _ _ Hu S2) (inner_window _ _ _ Hu Q2))) as [c' [_ [Ec' K]]].
      rewrite <- Ec in Ec'. assert (EQ : mismatch_phase ny nx f1 f2 c' (IZR C0 / u) (IZR D0 / u) = mismatch_phase ny nx f1 f2 c (IZR C0 / u) (IZR D0 / u)).
      { apply Rsqr_inj; try apply sqrt_pos. unfold Rsqr. cbn [pow] in Ec'. lra. }
      rewrite <- EQ. exact K.
    - unfold M. apply Rplus_le_compat_r. rewrite <- (mismatch_period ny nx Hy' Hx' f1 f2 ty tx k l). replace (PI / u) with (2 * PI * (1 / (2 * u))) by (field; lra).
      apply mismatch_near; auto; try (rewrite Rabs_minus_sym; auto). left. apply Rmult_lt_0_compat; [lra|apply Rinv_0_lt_compat; lra]. }
  split; [exact P|]. intros F N k0 l0 k' l' Hk Hl Hk' Hl'.
  assert (Q := phase_pair ny nx Hy' Hx' f1 f2 c ty tx (IZR C0 / u) (IZR D0 / u) [k0; l0] [k'; l'] Hc (inb2_intro _ _ _ _ Hk Hl) (inb2_intro _ _ _ _ Hk' Hl')).
  cbn [fdot] in Q. fold (F k0 l0) (F k' l') in Q.
  replace (fftfreq ny k0 * (IZR C0 / u - ty) + (fftfreq nx l0 * (IZR D0 / u - tx) + 0) - (fftfreq ny k' * (IZR C0 / u - ty) + (fftfreq nx l' * (IZR D0 / u - tx) + 0)))
    with ((fftfreq ny k0 - fftfreq ny k') * (IZR C0 / u - ty) + (fftfreq nx l0 - fftfreq nx l') * (IZR D0 / u - tx)) in Q by ring.
  refine (Rle_trans _ _ _ Q _). apply Rmult_le_compat_r; [apply Rplus_le_le_0_compat; apply Cmod_ge_0|]. apply Rmult_le_compat_l; [apply sqrt_pos|]. lra.
Qed.
Print Assumptions C136_near_coarse.

(** the offsets the code returns, when no far half-pixel offset reproduces the image *)
Theorem C136_register_images :
  forall A A' B S eps T mu im1 im2 u ret_err zeromean ny nx ty tx (p0 q0 : Z),
  shape im1 = [ny; nx] -> shape im2 = [ny; nx] -> (3 <= ny)%Z -> (3 <= nx)%Z -> 2 < u ->
  accurate eps [ny; nx] A -> accurate eps [ny * 2; nx * 2]%Z A' -> accurate_zoom eps T [ny; nx] B -> accurate_scalar eps (Z.to_nat (ny * nx)) S -> eps <= 1 / 2 ->
  rounds mu S -> mu <= 1 / 4 ->
  halves_exact S (ny + nx + ceilR (u * (3 / 2))) -> grid_unchanged S u ny -> grid_unchanged S u nx ->
  PI * reach ny * (1 + mu) ^ 12 <= T -> PI * reach nx * (1 + mu) ^ 12 <= T ->
  let f1 := prep zeromean im1 ny nx in let f2 := prep zeromean im2 ny nx in
  (* the image at half-pixel offsets away from the true shift, times any number of modulus 1, is further from the image at the true shift than some half-pixel offset is *)
  (forall (p q : Z) c, Cmod c = 1 -> ~ (near_coarse ny u (IZR p / 2) ty /\ near_coarse nx u (IZR q / 2) tx) ->
     self_distance ny nx f1 (RtoC 1) (IZR p0 / 2) (IZR q0 / 2) ty tx + 2 * mismatch ny nx f1 f2 ty tx + 2 * sqrt (peak_error eps zeromean im1 im2 ny nx) <
     self_distance ny nx f1 c (IZR p / 2) (IZR q / 2) ty tx) ->
  exists dx dy e,
    register_images_fp A A' B S im1 im2 u ret_err zeromean None = Ok (nums [dx; dy] ++ (if ret_err : bool then nums [e; e] else [])) /\
    Rabs (e - 1 / u) <= mu / u /\
    let N := sqrt (IZR (ny * nx)) * (2 * mismatch ny nx f1 f2 ty tx + PI / u * norm2 ny nx f1 + 2 * sqrt (fine_error eps mu zeromean im1 im2 ny nx)) in
    let Fy := Cmod (sumC ny (fun i => sumC nx (fun j => Cmult (RtoC (f1 i j)) (cis (- (2 * PI * (IZR i / IZR ny))))))) in
    let Fx := Cmod (sumC ny (fun i => sumC nx (fun j => Cmult (RtoC (f1 i j)) (cis (- (2 * PI * (IZR j / IZR nx))))))) in
    let F0 := Rabs (pixel_sum ny nx f1) in
    let ry := PI / IZR ny * offset_error mu ny in let rx := PI / IZR nx * offset_error mu nx in
    Rabs (sin (2 * PI * (dy - ty) / IZR ny)) * Fy <= N + 2 * ry * Fy /\
    Rabs (sin (2 * PI * (dx - tx) / IZR nx)) * Fx <= N + 2 * rx * Fx /\
    2 * Rabs (sin (PI * (dy - ty) / IZR ny)) * (Fy * F0) <= N * (Fy + F0) + 2 * ry * (Fy * F0) /\
    2 * Rabs (sin (PI * (dx - tx) / IZR nx)) * (Fx * F0) <= N * (Fx + F0) + 2 * rx * (Fx * F0).
Proof.
  intros A A' B S eps T mu im1 im2 u re zm ny nx ty tx p0 q0 H1 H2 Hy Hx Hu HA HA' HB HS He Hmu Hmu4 Hh G1 G2 T1 T2 f1 f2 Hfar.
  assert (Hy' : (0 < ny)%Z) by lia. assert (Hx' : (0 < nx)%Z) by lia.
  destruct (C136_near_coarse A A' B S eps T mu im1 im2 u re zm None ny nx H1 H2 ltac:(lia) ltac:(lia) I Hu HA HA' HB HS He Hmu Hmu4 Hh G1 G2 T1 T2)
    as [a [b [y [x [dx [dy [e [E [Ey [Ex [Ee [Ra [Rb [M1 [c [Hc K]]]]]]]]]]]]]]]].
  fold f1 f2 in M1, K. set (pe := peak_error eps zm im1 im2 ny nx) in *. set (fe := fine_error eps mu zm im1 im2 ny nx) in *.
  assert (PE : 0 <= pe) by (specialize (M1 a b I I); lra).
  assert (W : near_coarse ny u (IZR a / 2) ty /\ near_coarse nx u (IZR b / 2) tx).
  { apply Classical_Prop.NNPP. intros N.
    destruct (match_near ny nx f1 f2 (IZR a / 2) (IZR b / 2) (IZR p0 / 2) (IZR q0 / 2) pe Hy' Hx' PE (M1 p0 q0 I I)) as [d [Hd [_ L]]].
    specialize (Hfar a b d Hd N).
    assert (A1 := mismatch_up ny nx Hy' Hx' f1 f2 (IZR p0 / 2) (IZR q0 / 2) ty tx). assert (A2 := self_le ny nx Hy' Hx' f1 f2 d (IZR a / 2) (IZR b / 2) ty tx Hd). lra. }
  specialize (K ty tx (proj1 W) (proj2 W)). cbv zeta in K. destruct K as [_ Q].
  exists dx, dy, e. split; [exact E|]. split; [exact Ee|]. intros N Fy Fx F0 ry rx.
  assert (EN : sqrt (IZR (ny * nx)) * (mismatch ny nx f1 f2 ty tx + (mismatch ny nx f1 f2 ty tx + PI / u * norm2 ny nx f1 + 2 * sqrt fe)) = N) by (unfold N; ring).
  rewrite EN in Q.
  assert (N0 : 0 <= N).
  { unfold N. apply Rmult_le_pos; [apply sqrt_pos|]. assert (0 <= mismatch ny nx f1 f2 ty tx) by apply sqrt_pos. assert (0 <= norm2 ny nx f1) by apply sqrt_pos. assert (0 <= sqrt fe) by apply sqrt_pos.
    assert (0 <= PI / u * norm2 ny nx f1) by (apply Rmult_le_pos; auto; apply Rmult_le_pos; [left; apply PI_RGT_0|left; apply Rinv_0_lt_compat; lra]). lra. }
  destruct (axis_bounds ny nx f1 y x ty tx N Hy Hx Q N0) as [Q1 [Q2 [Q3 Q4]]]. fold Fy Fx F0 in Q1, Q2, Q3, Q4.
  assert (Fy0 : 0 <= Fy) by apply Cmod_ge_0. assert (Fx0 : 0 <= Fx) by apply Cmod_ge_0. assert (F00 : 0 <= F0) by apply Rabs_pos.
  assert (ST : forall n d v t' z m, (0 < n)%Z -> 0 <= m -> Rabs (d - v) <= z -> Rabs (sin (m * PI * (d - t') / IZR n)) <= Rabs (sin (m * PI * (v - t') / IZR n)) + m * (PI / IZR n * z)).
  { intros n d v t' z m Hn Hm H. assert (n0 : 0 < IZR n) by (apply IZR_lt; auto). refine (Rle_trans _ _ _ (sin_step _ (m * PI * (v - t') / IZR n)) _). apply Rplus_le_compat_l.
    replace (m * PI * (d - t') / IZR n - m * PI * (v - t') / IZR n) with (m * (PI / IZR n) * (d - v)) by (field; lra). assert (P := PI_RGT_0).
    assert (0 <= PI / IZR n) by (apply Rmult_le_pos; [lra|left; apply Rinv_0_lt_compat; auto]). assert (0 <= m * (PI / IZR n)) by (apply Rmult_le_pos; auto).
    rewrite Rabs_mult, (Rabs_right (m * _)) by lra. rewrite <- Rmult_assoc. apply Rmult_le_compat_l; auto. }
  assert (Y2 := ST ny dy y ty _ 2 Hy' ltac:(lra) Ey). assert (X2 := ST nx dx x tx _ 2 Hx' ltac:(lra) Ex).
  assert (Y1 := ST ny dy y ty _ 1 Hy' ltac:(lra) Ey). assert (X1 := ST nx dx x tx _ 1 Hx' ltac:(lra) Ex). fold ry in Y1, Y2. fold rx in X1, X2. rewrite !Rmult_1_l in Y1, X1.
  assert (YF : 0 <= Fy * F0) by (apply Rmult_le_pos; auto). assert (XF : 0 <= Fx * F0) by (apply Rmult_le_pos; auto).
  split; [|split; [|split]].
  - apply (Rmult_le_compat_r Fy) in Y2; [|exact Fy0]. lra.
  - apply (Rmult_le_compat_r Fx) in X2; [|exact Fx0]. lra.
  - apply (Rmult_le_compat_r (2 * (Fy * F0))) in Y1; [|lra]. lra.
  - apply (Rmult_le_compat_r (2 * (Fx * F0))) in X1; [|lra]. lra.
Qed.
Print Assumptions C136_register_images.
(** arithmetic in double precision meets the hypotheses *)
Lemma double_meets :
  forall q psy psx A A' B S T,
  let ny := prodZ psy in let nx := prodZ psx in let mu := u64 in
  let eps := 2 * u64 * (INR (fine_roundings q psy psx) + 5 * T + 1) in
  pos_shape psy -> pos_shape psx -> double_arith q [psy; psx] A -> double_arith q [2 :: psy; 2 :: psx]%Z A' -> double_zarith q [psy; psx] B ->
  double_scalar q (Z.to_nat (ny * nx)) S -> (forall x, sa_rd S x = rnd64 x) -> eps <= 1 / 2 -> (1 < ny)%Z -> PI * reach ny * (1 + mu) ^ 12 <= T ->
  accurate eps [ny; nx] A /\ accurate eps [ny * 2; nx * 2]%Z A' /\ accurate_zoom eps T [ny; nx] B /\ accurate_scalar eps (Z.to_nat (ny * nx)) S /\ rounds mu S /\ mu <= 1 / 4.
Proof.
  intros q psy psx A A' B S T ny nx mu eps Py Px HA HA' HB HS HRD Hle Hy HTy.
  assert (Hp : Forall pos_shape [psy; psx]) by (repeat constructor; auto). assert (U := u64_pos). set (m := fine_roundings q psy psx) in *.
  assert (Hp2 : Forall pos_shape [2 :: psy; 2 :: psx]%Z) by (repeat constructor; auto; apply pos_shape_cons; split; auto; lia).
  assert (T0 : 0 <= T).
  { refine (Rle_trans _ _ _ _ HTy). assert (0 < IZR ny) by (apply IZR_lt; lia). assert (1 <= (1 + mu) ^ 12) by (apply pow_R1_Rle; unfold mu; lra). assert (PP := PI_RGT_0).
    apply Rmult_le_pos; [apply Rmult_le_pos; [lra|unfold reach; lra]|lra]. }
  assert (E0 : 2 * u64 * INR m <= eps) by (unfold eps; apply Rmult_le_compat_l; lra).
  assert (UM : forall n, (n <= m)%nat -> (1 + u64) ^ n - 1 <= eps).
  { intros n Hn. assert (Q := C112_roundoff m ltac:(lra)). assert (Q2 := up_mono n m Hn). lra. }
  assert (F5 : (1 + u64) ^ 5 - 1 <= 10 * u64).
  { assert (Q := C112_roundoff 5). change (INR 5) with (1 + 1 + 1 + 1 + 1) in Q. assert (Q3 : (1 + 1 + 1 + 1 + 1) * u64 <= 1 / 2); [|specialize (Q Q3); lra].
    rewrite u64_val. apply (Rmult_le_reg_r (2 ^ 53)); [apply pow_lt; lra|]. rewrite Rmult_assoc, Rinv_l by (apply pow_nonzero; lra). cbn [pow]. lra. }
  assert (M1 : (roundings1 q psy + (roundings1 q psx + 0) + 4 <= m)%nat) by (unfold m, fine_roundings, chi2_roundings, most_roundings; lia).
  assert (M2 : (roundings1 q (2 :: psy)%Z + (roundings1 q (2 :: psx)%Z + 0) + 4 <= m)%nat) by (unfold m, fine_roundings; lia).
  assert (EA : accurate eps [ny; nx] A).
  { apply (accurate_weaken ((1 + u64) ^ (roundings1 q psy + (roundings1 q psx + 0) + 4) - 1)).
    - exact (C112_fft_is_accurate q [psy; psx] A Hp HA).
    - apply (UM _ M1). }
  assert (EA' : accurate eps [ny * 2; nx * 2]%Z A').
  { rewrite (Z.mul_comm ny), (Z.mul_comm nx). apply (accurate_weaken ((1 + u64) ^ (roundings1 q (2 :: psy)%Z + (roundings1 q (2 :: psx)%Z + 0) + 4) - 1)).
    - exact (C112_fft_is_accurate q [2 :: psy; 2 :: psx]%Z A' Hp2 HA').
    - apply (UM _ M2). }
  assert (EB : accurate_zoom eps T [ny; nx] B).
  { apply (C112_zoom_is_accurate q [psy; psx] B T eps Hp HB).
    - apply (UM _ M1).
    - assert (K := Rmult_le_compat_l T _ _ T0 F5). unfold eps. assert (0 <= INR m) by apply pos_INR. assert (0 <= u64 * INR m) by (apply Rmult_le_pos; lra). lra.
    - intros n Hn. apply UM. unfold m, fine_roundings, chi2_roundings, most_roundings. fold ny nx. cbn in Hn. destruct Hn as [<- | [<- | []]]; fold ny nx; lia. }
  assert (HR : rounds u64 S) by (split; [lra|]; intros x; rewrite HRD; apply rnd64_err).
  assert (ES : accurate_scalar eps (Z.to_nat (ny * nx)) S) by (apply (scalar_weaken _ _ _ _ (C113_double_is_accurate q _ S HS)); apply UM; unfold m, fine_roundings, chi2_roundings; fold ny nx; lia).
  assert (MU : u64 <= 1 / 4) by (assert (Q := u64_small 1 ltac:(lia)); cbn [INR] in Q; lra).
  exact (conj EA (conj EA' (conj EB (conj ES (conj HR MU))))).
Qed.

Theorem C136_double :
  forall q psy psx A A' B S T im1 im2 u ret_err zeromean ty tx (p0 q0 : Z),
  let ny := prodZ psy in let nx := prodZ psx in let mu := u64 in
  let eps := 2 * u64 * (INR (fine_roundings q psy psx) + 5 * T + 1) in
  pos_shape psy -> pos_shape psx -> double_arith q [psy; psx] A -> double_arith q [2 :: psy; 2 :: psx]%Z A' -> double_zarith q [psy; psx] B ->
  double_scalar q (Z.to_nat (ny * nx)) S -> (forall x, sa_rd S x = rnd64 x) -> eps <= 1 / 2 ->
  shape im1 = [ny; nx] -> shape im2 = [ny; nx] -> (3 <= ny)%Z -> (3 <= nx)%Z -> 2 < u ->
  halves_exact S (ny + nx + ceilR (u * (3 / 2))) -> grid_unchanged S u ny -> grid_unchanged S u nx ->
  PI * reach ny * (1 + mu) ^ 12 <= T -> PI * reach nx * (1 + mu) ^ 12 <= T ->
  let f1 := prep zeromean im1 ny nx in let f2 := prep zeromean im2 ny nx in
  (forall (p q : Z) c, Cmod c = 1 -> ~ (near_coarse ny u (IZR p / 2) ty /\ near_coarse nx u (IZR q / 2) tx) ->
     self_distance ny nx f1 (RtoC 1) (IZR p0 / 2) (IZR q0 / 2) ty tx + 2 * mismatch ny nx f1 f2 ty tx + 2 * sqrt (peak_error eps zeromean im1 im2 ny nx) <
     self_distance ny nx f1 c (IZR p / 2) (IZR q / 2) ty tx) ->
  exists dx dy e,
    register_images_fp A A' B S im1 im2 u ret_err zeromean None = Ok (nums [dx; dy] ++ (if ret_err : bool then nums [e; e] else [])) /\
    Rabs (e - 1 / u) <= / 2 ^ 53 / u /\
    let N := sqrt (IZR (ny * nx)) * (2 * mismatch ny nx f1 f2 ty tx + PI / u * norm2 ny nx f1 + 2 * sqrt (fine_error eps mu zeromean im1 im2 ny nx)) in
    let Fy := Cmod (sumC ny (fun i => sumC nx (fun j => Cmult (RtoC (f1 i j)) (cis (- (2 * PI * (IZR i / IZR ny))))))) in
    let Fx := Cmod (sumC ny (fun i => sumC nx (fun j => Cmult (RtoC (f1 i j)) (cis (- (2 * PI * (IZR j / IZR nx))))))) in
    let F0 := Rabs (pixel_sum ny nx f1) in
    let ry := PI / IZR ny * ((IZR ny + 8) * 3 * / 2 ^ 53) in let rx := PI / IZR nx * ((IZR nx + 8) * 3 * / 2 ^ 53) in
    Rabs (sin (2 * PI * (dy - ty) / IZR ny)) * Fy <= N + 2 * ry * Fy /\
    Rabs (sin (2 * PI * (dx - tx) / IZR nx)) * Fx <= N + 2 * rx * Fx /\
    2 * Rabs (sin (PI * (dy - ty) / IZR ny)) * (Fy * F0) <= N * (Fy + F0) + 2 * ry * (Fy * F0) /\
    2 * Rabs (sin (PI * (dx - tx) / IZR nx)) * (Fx * F0) <= N * (Fx + F0) + 2 * rx * (Fx * F0).
Proof.
  intros q psy psx A A' B S T im1 im2 u re zm ty tx p0 q0 ny nx mu eps Py Px HA HA' HB HS HRD Hle H1 H2 Hy Hx Hu HH Gy Gx HTy HTx f1 f2 Hfar.
  destruct (double_meets q psy psx A A' B S T Py Px HA HA' HB HS HRD Hle) as [EA [EA' [EB [ES [HR MU]]]]]; [fold ny; lia|exact HTy|]. fold ny nx mu eps in EA, EA', EB, ES, HR, MU.
  destruct (C136_register_images A A' B S eps T mu im1 im2 u re zm ny nx ty tx p0 q0 H1 H2 Hy Hx Hu EA EA' EB ES Hle HR MU HH Gy Gx HTy HTx Hfar) as [dx [dy [e [E [Ee K]]]]].
  exists dx, dy, e. split; [exact E|]. split; [rewrite <- u64_val; exact Ee|].
  intros N Fy Fx F0 ry rx. cbv zeta in K. fold f1 f2 in K. fold N Fy Fx F0 in K. destruct K as [K1 [K2 [K3 K4]]].
  assert (OB : forall n, (3 <= n)%Z -> PI / IZR n * offset_error mu n <= PI / IZR n * ((IZR n + 8) * 3 * / 2 ^ 53)).
  { intros n Hn. apply IZR_le in Hn. apply Rmult_le_compat_l; [apply Rmult_le_pos; [left; apply PI_RGT_0|left; apply Rinv_0_lt_compat; lra]|].
    rewrite <- u64_val. unfold mu, offset_error, reach. assert (Q := C112_roundoff 3). assert (E3 : INR 3 = 3) by (rewrite INR_IZR_INZ; reflexivity). assert (S1 := u64_small 3 ltac:(lia)). assert (U := u64_pos). rewrite E3 in *. specialize (Q ltac:(lra)).
    replace ((IZR n + 8) * 3 * u64) with ((IZR n / 2 + 4) * (2 * 3 * u64)) by field. apply Rmult_le_compat_l; lra. }
  assert (Oy := OB ny Hy). assert (Ox := OB nx Hx). fold ry in Oy. fold rx in Ox.
  assert (Fy0 : 0 <= Fy) by apply Cmod_ge_0. assert (Fx0 : 0 <= Fx) by apply Cmod_ge_0. assert (F00 : 0 <= F0) by apply Rabs_pos.
  assert (YF : 0 <= Fy * F0) by (apply Rmult_le_pos; auto). assert (XF : 0 <= Fx * F0) by (apply Rmult_le_pos; auto).
  assert (Y1 := Rmult_le_compat_r Fy _ _ Fy0 Oy). assert (X1 := Rmult_le_compat_r Fx _ _ Fx0 Ox).
  assert (Y2 := Rmult_le_compat_r (Fy * F0) _ _ YF Oy). assert (X2 := Rmult_le_compat_r (Fx * F0) _ _ XF Ox).
  split; [lra|]. split; [lra|]. split; lra.
Qed.
Print Assumptions C136_double.

(** a bright pixel and the same image rolled by one pixel along each axis, 64 steps per pixel *)
Lemma dot3_rcc s t : rcc 3 3 (prep false (dot 3 3 0 0) 3 3) (prep false (dot 3 3 1 1) 3 3) s t =
  RtoC ((1 + 2 * cos (2 * PI * ((1 - s) / 3))) / 3 * ((1 + 2 * cos (2 * PI * ((1 - t) / 3))) / 3)).
Proof.
  assert (P33 : pos_shape [3; 3]%Z) by (apply pos2; lia).
  assert (CS : forall i j, cshift 3 3 (prep false (dot 3 3 0 0) 3 3) s t i j = Cmult (D1 3 (IZR i - s)) (D1 3 (IZR j - t))).
  { intros i j. unfold cshift, trig_interp. rewrite (sumNC_single _ _ [0; 0]%Z).
    - rewrite <- Dn_dirichletN by auto. cbn [toR map subR zipw img2]. rewrite dot_prep. cbn [Z.eqb andb]. rewrite Dn_cons by auto. rewrite Dn_1 by lia. rewrite Cmult_1_l. unfold subR, zipw. f_equal; f_equal; lra.
    - apply inb2_intro; lia.
    - intros y Hy N. apply inb2 in Hy. destruct Hy as [a [b [-> _]]]. cbn [img2]. rewrite dot_prep. destruct (Z.eqb_spec a 0), (Z.eqb_spec b 0); cbn [andb]; subst; [congruence| | |]; apply Cmult_0_l. }
  unfold rcc. change (sumC 3) with (sumC (0 + 1 + 1 + 1)). rewrite !sumC_S by lia. change (sumC 0) with (fun _ : Z -> C => RtoC 0). cbv beta.
  rewrite !CS, !D1_3. unfold prep, px, dot. cbn [get mk2]. change (0 + 1)%Z with 1%Z. change (1 + 1)%Z with 2%Z. cbn [Z.eqb Pos.eqb andb].
  rewrite <- ?RtoC_mult, <- ?RtoC_plus. f_equal. change (0 + 1)%Z with 1%Z. field.
Qed.

Example C136_nonvacuous : let im1 := dot 3 3 0 0 in let im2 := dot 3 3 1 1 in
  exists dx dy e, register_images_fp (float_arith [[3]; [3]]%Z) (float_arith [[2; 3]; [2; 3]]%Z) (float_zarith [[3]; [3]]%Z) float_sarith im1 im2 64 true false None = Ok (nums [dx; dy; e; e]) /\
    Rabs (sin (2 * PI * (dy - 1) / 3)) <= 1 / 5 /\ Rabs (sin (2 * PI * (dx - 1) / 3)) <= 1 / 5 /\
    2 * Rabs (sin (PI * (dy - 1) / 3)) <= 2 / 5 /\ 2 * Rabs (sin (PI * (dx - 1) / 3)) <= 2 / 5 /\ Rabs (e - 1 / 64) <= / 2 ^ 53.
Proof.
  intros im1 im2.
  assert (P3 : pos_shape [3]%Z) by (apply pos_shape_cons; split; [lia|constructor]).
  assert (P23 : pos_shape [2; 3]%Z) by (apply pos2; lia).
  destruct (C112_nonvacuous [[3]; [3]]%Z ltac:(repeat constructor; auto)) as [HA HB].
  destruct (C112_nonvacuous [[2; 3]; [2; 3]]%Z ltac:(repeat constructor; auto)) as [HA' _].
  assert (U64 := u64_pos). assert (US : u64 <= / 10 ^ 12) by (rewrite u64_val; apply Rinv_le_contravar; cbn [pow]; lra).
  set (m := fine_roundings 1 [3]%Z [3]%Z). assert (Em : INR m <= 100) by (replace 100 with (INR 100) by (rewrite INR_IZR_INZ; reflexivity); apply le_INR; vm_compute; lia).
  assert (PU := PI_4). assert (PL := PI_RGT_0).
  set (eps := 2 * u64 * (INR m + 5 * (PI * 6) + 1)).
  assert (He : 0 <= eps <= 1 / 1000000000).
  { unfold eps. assert (0 <= INR m) by apply pos_INR. split; [apply Rmult_le_pos; lra|]. refine (Rle_trans _ (2 * / 10 ^ 12 * 221) _ _ _); [apply Rmult_le_compat; lra|cbn [pow]; lra]. }
  assert (E11 : 1 <= (1 + eps) ^ 11 <= 1 + 1 / 10000000) by (split; [apply pow_R1_Rle; lra|]; refine (Rle_trans _ ((1 + 1 / 1000000000) ^ 11) _ _ _); [apply pow_incr; lra|cbn [pow]; lra]).
  assert (E13 : 1 <= (1 + eps) ^ 13 <= 1 + 1 / 10000000) by (split; [apply pow_R1_Rle; lra|]; refine (Rle_trans _ ((1 + 1 / 1000000000) ^ 13) _ _ _); [apply pow_incr; lra|cbn [pow]; lra]).
  cbn [pow] in US.
  assert (M12 : 1 <= (1 + u64) ^ 12 <= 1 + 1 / 10000000000) by (split; [apply pow_R1_Rle; lra|]; refine (Rle_trans _ ((1 + 1 / 1000000000000) ^ 12) _ _ _); [apply pow_incr; lra|cbn [pow]; lra]).
  assert (M7 : 1 <= (1 + u64) ^ 7 <= 1 + 1 / 10000000000) by (split; [apply pow_R1_Rle; lra|]; refine (Rle_trans _ ((1 + 1 / 1000000000000) ^ 7) _ _ _); [apply pow_incr; lra|cbn [pow]; lra]).
  assert (PE : 0 <= phase_error u64 3 <= 1 / 10000000).
  { unfold phase_error, reach. split; [apply Rmult_le_pos; lra|]. refine (Rle_trans _ (4 * (3 / 2 + 4) * (1 / 10000000000)) _ _ _); [|lra]. apply Rmult_le_compat; [apply Rmult_le_pos; lra|lra|apply Rmult_le_compat; lra|lra]. }
  assert (TS : forall h, pixel_sum 3 3 h = (h 0%Z 0%Z + h 0%Z 1%Z + h 0%Z 2%Z) + (h 1%Z 0%Z + h 1%Z 1%Z + h 1%Z 2%Z) + (h 2%Z 0%Z + h 2%Z 1%Z + h 2%Z 2%Z)).
  { intros h. unfold pixel_sum. change 3%Z with (0 + 1 + 1 + 1)%Z. rewrite !sumR_S, !sumR_0 by lia. cbn. ring. }
  assert (W1 : pixel_sum 3 3 (weight false im1 3 3) = 1).
  { rewrite TS. unfold weight, im1, dot. cbn [get mk2 Z.eqb Pos.eqb andb]. rewrite Rabs_R0, Rabs_R1. ring. }
  assert (W2 : pixel_sum 3 3 (weight false im2 3 3) = 1).
  { rewrite TS. unfold weight, im2, dot. cbn [get mk2 Z.eqb Pos.eqb andb]. rewrite Rabs_R0, Rabs_R1. ring. }
  set (f := prep false im1 3 3). set (g := prep false im2 3 3).
  assert (Df : forall i j, f i j = if ((i =? 0) && (j =? 0))%Z then 1 else 0) by (intros; apply dot_prep).
  assert (Dg : forall i j, g i j = if ((i =? 1) && (j =? 1))%Z then 1 else 0) by (intros; apply dot_prep).
  assert (R : forall i j, (0 <= i < 3)%Z -> (0 <= j < 3)%Z -> g i j = f ((i - 1) mod 3)%Z ((j - 1) mod 3)%Z).
  { intros i j Hi Hj. rewrite Df, Dg. assert (Q : forall v, (0 <= v < 3)%Z -> ((v - 1) mod 3 =? 0)%Z = (v =? 1)%Z).
    { intros v Hv. assert (v = 0 \/ v = 1 \/ v = 2)%Z as [-> | [-> | ->]] by lia; reflexivity. }
    rewrite !Q by auto. reflexivity. }
  assert (CI : forall i j, (0 <= i < 3)%Z -> (0 <= j < 3)%Z -> cshift 3 3 f 1 1 i j = RtoC (g i j)).
  { intros i j Hi Hj. rewrite (cshift_int 3 3 f 1 1 i j) by lia. rewrite R by auto. reflexivity. }
  assert (M0 : mismatch 3 3 f g 1 1 = 0).
  { unfold mismatch. match goal with |- sqrt ?X = 0 => replace X with 0; [apply sqrt_0|] end. symmetry. apply sum2_const0. intros i j Hi Hj. cbv beta.
    rewrite CI by auto. unfold Cminus. rewrite Cplus_opp_r, Cmod_0. ring. }
  assert (S0 : self_distance 3 3 f (RtoC 1) (IZR 2 / 2) (IZR 2 / 2) 1 1 = 0).
  { replace (IZR 2 / 2) with 1 by field. unfold self_distance. match goal with |- sqrt ?X = 0 => replace X with 0; [apply sqrt_0|] end. symmetry. apply sum2_const0. intros i j _ _. cbv beta. rewrite Cmult_1_l. unfold Cminus. rewrite Cplus_opp_r, Cmod_0. ring. }
  assert (Nf : norm2 3 3 f = 1).
  { unfold norm2. rewrite TS, !Df. cbn [Z.eqb Pos.eqb andb]. replace (_ + _ + _) with 1 by ring. apply sqrt_1. }
  assert (Ng : norm2 3 3 g = 1).
  { unfold norm2. rewrite TS, !Dg. cbn [Z.eqb Pos.eqb andb]. replace (_ + _ + _) with 1 by ring. apply sqrt_1. }
  set (phi := fun t => (1 + 2 * cos (2 * PI * ((1 - t) / 3))) / 3).
  assert (PB : forall t, Rabs (phi t) <= 1) by (intros t; unfold phi; assert (Q := COS_bound (2 * PI * ((1 - t) / 3))); apply Rabs_le; lra).
  assert (CR : forall s t, Cmod (rcc 3 3 f g s t) = Rabs (phi s) * Rabs (phi t)) by (intros s t; unfold f, g, im1, im2; rewrite dot3_rcc, Cmod_R, Rabs_mult; reflexivity).
  (* half-pixel offsets at least a pixel away along some axis *)
  assert (CP : forall x k, cos (2 * PI * ((x + 3 * IZR k) / 3)) = cos (2 * PI * (x / 3))).
  { intros x k. replace (2 * PI * ((x + 3 * IZR k) / 3)) with (2 * PI * (x / 3) + 2 * PI * IZR k) by field. assert (C := cis_period (2 * PI * (x / 3)) k). unfold cis in C. injection C as C _. exact C. }
  assert (PF : forall p : Z, ~ near_coarse 3 64 (IZR p / 2) 1 -> Rabs (phi (IZR p / 2)) <= 1 / 3).
  { intros p Np. assert (D := Z.div_mod (p - 1) 6 ltac:(lia)). assert (B := Z.mod_pos_bound (p - 1) 6 ltac:(lia)). set (k := ((p - 1) / 6)%Z) in *. set (r := ((p - 1) mod 6)%Z) in *.
    assert (EP : IZR p = 6 * IZR k + IZR r + 1) by (rewrite <- mult_IZR, <- !plus_IZR; apply f_equal; lia).
    assert (NR : forall v, IZR r = v -> Rabs (1 - (v + 1) / 2) <= 1 / 2 -> False).
    { intros v Ev Hv. apply Np. exists k. replace (1 + IZR k * 3 - IZR p / 2) with (1 - (v + 1) / 2) by (rewrite EP, Ev; field). lra. }
    unfold phi. replace (1 - IZR p / 2) with ((1 - IZR r) / 2 + 3 * IZR (- k)) by (rewrite EP, opp_IZR; field). rewrite CP.
    assert (r = 0 \/ r = 1 \/ r = 2 \/ r = 3 \/ r = 4 \/ r = 5)%Z as [E | [E | [E | [E | [E | E]]]]] by lia; rewrite E.
    - exfalso. apply (NR 0); [rewrite E; reflexivity|]. replace (1 - (0 + 1) / 2) with (1 / 2) by field. rewrite Rabs_right; lra.
    - exfalso. apply (NR 1); [rewrite E; reflexivity|]. replace (1 - (1 + 1) / 2) with 0 by field. rewrite Rabs_R0; lra.
    - exfalso. apply (NR 2); [rewrite E; reflexivity|]. replace (1 - (2 + 1) / 2) with (- (1 / 2)) by field. rewrite Rabs_Ropp, Rabs_right; lra.
    - rewrite <- cos_neg. replace (- (2 * PI * ((1 - 3) / 2 / 3))) with (- (PI / 3) + PI) by field. rewrite neg_cos, cos_neg, cos_PI3. apply Rabs_le. lra.
    - rewrite <- cos_neg. replace (- (2 * PI * ((1 - 4) / 2 / 3))) with PI by field. rewrite cos_PI. apply Rabs_le. lra.
    - rewrite <- cos_neg. replace (- (2 * PI * ((1 - 5) / 2 / 3))) with (PI / 3 + PI) by field. rewrite neg_cos, cos_PI3. apply Rabs_le. lra. }
  assert (SD : forall s t c, Cmod c = 1 -> Rabs (phi s) * Rabs (phi t) <= 1 / 3 -> 1 <= self_distance 3 3 f c s t 1 1).
  { intros s t c Hc Q. assert (E : self_distance 3 3 f c s t 1 1 = mismatch_phase 3 3 f g c s t).
    { unfold self_distance, mismatch_phase. f_equal. apply sum2_ext. intros i j Bi Bj. rewrite CI by auto. rewrite <- Cmod_opp. f_equal. f_equal. ring. }
    rewrite E. apply Rsqr_incr_0_var; [|apply sqrt_pos]. unfold Rsqr. set (z := mismatch_phase _ _ _ _ _ _ _). replace (z * z) with (z ^ 2) by ring. unfold z.
    rewrite mismatch_phase_sq by (auto; lia). rewrite Nf, Ng. rewrite <- CR in Q. set (r := rcc 3 3 f g s t) in *.
    assert (R1 : Re (Cmult (Cconj c) r) <= Cmod r).
    { apply Rle_trans with (Cmod (Cmult (Cconj c) r)); [|rewrite Cmod_mult, Cmod_conj', Hc; lra].
      unfold Cmod, Re. refine (Rle_trans _ _ _ (Rle_abs _) _). rewrite <- sqrt_Rsqr_abs. apply sqrt_le_1_alt. unfold Rsqr. set (w := Cmult _ _). assert (T := pow2_ge_0 (snd w)). cbn [pow] in *. lra. }
    lra. }
  destruct (C123_integer_factor float_sarith 3 (3 + 3 + 96) 64 ltac:(reflexivity) ltac:(lia) ltac:(lia) ltac:(lia) ltac:(lia)) as [HH HG].
  assert (L96 : ceilR (64 * (3 / 2)) = 96%Z) by (replace (64 * (3 / 2)) with (IZR 96) by (cbn; lra); apply ceilR_IZR).
  assert (FE : 0 <= fine_error eps u64 false im1 im2 3 3 <= 1 / 1000000).
  { unfold fine_error. rewrite W1, W2. assert (K : 1 <= ((1 + eps) ^ 13 + phase_error u64 3 + phase_error u64 3) * (1 + u64) ^ 7 <= (1 + 3 / 10000000) * (1 + 1 / 10000000000)).
    { split; [rewrite <- (Rmult_1_r 1); apply Rmult_le_compat; lra|apply Rmult_le_compat; lra]. } lra. }
  assert (SQ : forall v, 0 <= v <= 1 / 1000000 -> sqrt v <= 1 / 1000) by (intros v Hv; rewrite <- (sqrt_Rsqr (1 / 1000)) by lra; apply sqrt_le_1_alt; unfold Rsqr; lra).
  destruct (C136_double 1 [3]%Z [3]%Z (float_arith [[3]; [3]]%Z) (float_arith [[2; 3]; [2; 3]]%Z) (float_zarith [[3]; [3]]%Z) float_sarith (PI * 6) im1 im2 64 true false 1 1 2 2)
    as [dx [dy [e [E [Ee K]]]]]; change (prodZ [3])%Z with 3%Z; auto; try lia; try lra.
  - apply C113_nonvacuous.
  - fold m eps. lra.
  - rewrite L96. exact HH.
  - unfold reach. rewrite Rmult_assoc. apply Rmult_le_compat_l; lra.
  - unfold reach. rewrite Rmult_assoc. apply Rmult_le_compat_l; lra.
  - fold m eps f g. intros p q c Hc N. rewrite S0, M0.
    apply Rlt_le_trans with 1.
    + assert (Q : sqrt (peak_error eps false im1 im2 3 3) <= 1 / 1000) by (apply SQ; unfold peak_error; rewrite W1, W2; lra). lra.
    + apply SD; [exact Hc|]. assert (Y1 := PB (IZR p / 2)). assert (Y2 := PB (IZR q / 2)). assert (Z1 := Rabs_pos (phi (IZR p / 2))). assert (Z2 := Rabs_pos (phi (IZR q / 2))).
      destruct (Classical_Prop.classic (near_coarse 3 64 (IZR p / 2) 1)) as [A|A].
      * assert (B : ~ near_coarse 3 64 (IZR q / 2) 1) by tauto. apply PF in B. replace (1 / 3) with (1 * (1 / 3)) by ring. apply Rmult_le_compat; auto.
      * apply PF in A. replace (1 / 3) with (1 / 3 * 1) by ring. apply Rmult_le_compat; auto.
  - change (prodZ [3])%Z with 3%Z in K. cbv zeta in K. fold m eps f g in K. rewrite M0, Nf in K. change (IZR (3 * 3)) with (IZR 9) in K.
    assert (S9 : sqrt 9 = 3) by (replace 9 with (3 * 3) by ring; apply sqrt_square; lra). rewrite S9 in K.
    assert (NB : 3 * (2 * 0 + PI / 64 * 1 + 2 * sqrt (fine_error eps u64 false im1 im2 3 3)) <= 194 / 1000) by (assert (Q := SQ _ FE); lra).
    set (N := 3 * _) in *.
    assert (F0 : Rabs (pixel_sum 3 3 f) = 1) by (rewrite TS, !Df; cbn [Z.eqb Pos.eqb andb]; rewrite Rabs_right; lra).
    assert (FY : Cmod (sumC 3 (fun i => sumC 3 (fun j => Cmult (RtoC (f i j)) (cis (- (2 * PI * (IZR i / IZR 3))))))) = 1).
    { change (sumC 3) with (sumC (0 + 1 + 1 + 1)). rewrite !sumC_S by lia. change (sumC 0) with (fun _ : Z -> C => RtoC 0). cbv beta. rewrite !Df. cbn [Z.add Z.eqb Pos.eqb Pos.add Pos.succ andb]. rewrite !Cmult_0_l, !Cplus_0_r, !Cplus_0_l, Cmult_1_l. apply Cmod_cis. }
    assert (FX : Cmod (sumC 3 (fun i => sumC 3 (fun j => Cmult (RtoC (f i j)) (cis (- (2 * PI * (IZR j / IZR 3))))))) = 1).
    { change (sumC 3) with (sumC (0 + 1 + 1 + 1)). rewrite !sumC_S by lia. change (sumC 0) with (fun _ : Z -> C => RtoC 0). cbv beta. rewrite !Df. cbn [Z.add Z.eqb Pos.eqb Pos.add Pos.succ andb]. rewrite !Cmult_0_l, !Cplus_0_r, !Cplus_0_l, Cmult_1_l. apply Cmod_cis. }
    rewrite FY, FX, F0 in K. rewrite <- u64_val in *.
    assert (RY : 0 <= PI / 3 * ((3 + 8) * 3 * u64) <= 1 / 1000) by (split; [apply Rmult_le_pos; lra|]; refine (Rle_trans _ (4 / 3 * ((3 + 8) * 3 * / 1000000000000)) _ _ _); [apply Rmult_le_compat; lra|lra]).
    destruct K as [K1 [K2 [K3 K4]]].
    exists dx, dy, e. split; [exact E|]. split; [lra|]. split; [lra|]. split; [lra|]. split; [lra|]. lra.
Qed.
