(** C121, second part: register_images, for images with two neighbouring frequencies along each axis *)
From Coq Require Import ZArith Lia List Reals Lra Bool Classical.
From Coquelicot Require Import Complex.
From Verif Require Import Base NDim DFT Kernel Num Py Sum2 M_fast_ffts M_shift M_scale M_zoom M_upsample M_convolve M_correlate Arg M_chi2 M_xcorr M_register
  Spec L_shift L_scale L_upsample L_convolve Spec2 Spec3 Spec4 L_correlate L_chi2 L_register L_register2 L_register3
  L_chi2shift L_fshift L_xcorr P_xcorr P_xcorr2 P_xcorr3 P_chi2map P_chi2shift P_chi2shift2 P_register P_noise P_accuracy P_accuracy2 P_accuracy3 P_consistent.
Import ListNotations.
Open Scope R_scope.

(** the number of modulus 1 that brings two images closest *)
Lemma best_unit ny nx (u v : Z -> Z -> C) : exists c0, Cmod c0 = 1 /\ forall c, Cmod c = 1 ->
  sqrt (pixel_sum ny nx (fun i j => Cmod (Cminus (u i j) (Cmult c0 (v i j))) ^ 2)) <= sqrt (pixel_sum ny nx (fun i j => Cmod (Cminus (u i j) (Cmult c (v i j))) ^ 2)).
Proof.
  set (wr := fun i j => fst (u i j) * fst (v i j) + snd (u i j) * snd (v i j)). set (wi := fun i j => snd (u i j) * fst (v i j) - fst (u i j) * snd (v i j)).
  set (a := sum2 ny nx wr). set (b := sum2 ny nx wi).
  assert (SQ : forall z, Cmod z ^ 2 = fst z ^ 2 + snd z ^ 2) by (intros z; unfold Cmod; rewrite pow2_sqrt; [reflexivity|]; assert (T := pow2_ge_0 (fst z)); assert (T' := pow2_ge_0 (snd z)); lra).
  set (e := sum2 ny nx (fun i j => Cmod (u i j) ^ 2 + Cmod (v i j) ^ 2)).
  assert (E : forall c, Cmod c = 1 -> sum2 ny nx (fun i j => Cmod (Cminus (u i j) (Cmult c (v i j))) ^ 2) = e - 2 * (fst c * a + snd c * b)).
  { intros c Hc. assert (C1 : fst c ^ 2 + snd c ^ 2 = 1) by (rewrite <- SQ, Hc; ring). unfold a, b, e.
    rewrite <- (sum2_scal ny nx (fst c) wr), <- (sum2_scal ny nx (snd c) wi), <- (sum2_plus ny nx (fun i j => fst c * wr i j) (fun i j => snd c * wi i j)).
    rewrite <- (sum2_scal ny nx 2), <- sum2_minus. apply sum2_ext. intros i j _ _. rewrite !SQ. unfold wr, wi. destruct (u i j) as [ur ui]. destruct (v i j) as [vr vi]. destruct c as [cr ci]. cbn [fst snd Cminus Cplus Copp Cmult] in *.
    replace (ur ^ 2 + ui ^ 2 + (vr ^ 2 + vi ^ 2) - 2 * (cr * (ur * vr + ui * vi) + ci * (ui * vr - ur * vi))) with
      (ur ^ 2 + ui ^ 2 + (cr ^ 2 + ci ^ 2) * (vr ^ 2 + vi ^ 2) - 2 * (cr * (ur * vr + ui * vi) + ci * (ui * vr - ur * vi))) by (rewrite C1; ring). ring. }
  set (r := sqrt (a ^ 2 + b ^ 2)). assert (A2 := pow2_ge_0 a). assert (B2 := pow2_ge_0 b).
  assert (R2 : r ^ 2 = a ^ 2 + b ^ 2) by (unfold r; apply pow2_sqrt; lra). assert (R0 : 0 <= r) by apply sqrt_pos.
  assert (CS : forall c, Cmod c = 1 -> fst c * a + snd c * b <= r).
  { intros c Hc. assert (C1 : fst c ^ 2 + snd c ^ 2 = 1) by (rewrite <- SQ, Hc; ring). destruct (Rle_dec (fst c * a + snd c * b) 0) as [L|L]; [lra|].
    apply Rsqr_incr_0_var; [|auto]. unfold Rsqr. assert (T := pow2_ge_0 (fst c * b - snd c * a)).
    replace (r * r) with ((fst c ^ 2 + snd c ^ 2) * (a ^ 2 + b ^ 2)) by (rewrite C1, <- R2; ring).
    replace ((fst c ^ 2 + snd c ^ 2) * (a ^ 2 + b ^ 2)) with ((fst c * a + snd c * b) * (fst c * a + snd c * b) + (fst c * b - snd c * a) ^ 2) by ring. lra. }
  assert (W : exists c0, Cmod c0 = 1 /\ fst c0 * a + snd c0 * b = r).
  { destruct (Req_EM_T r 0) as [Z0|N].
    - exists (RtoC 1). split; [apply Cmod_1|]. rewrite Z0 in R2. assert (a ^ 2 = 0) by lra. assert (b ^ 2 = 0) by lra. assert (a = 0) by (apply Rsqr_0_uniq; unfold Rsqr; lra). assert (b = 0) by (apply Rsqr_0_uniq; unfold Rsqr; lra).
      cbn [RtoC fst snd]. rewrite Z0. lra.
    - exists (a / r, b / r). split.
      + assert (Q : Cmod (a / r, b / r) ^ 2 = 1) by (rewrite SQ; cbn [fst snd]; replace ((a / r) ^ 2 + (b / r) ^ 2) with ((a ^ 2 + b ^ 2) / r ^ 2) by (field; auto); rewrite <- R2; field; auto).
        assert (P := Cmod_ge_0 (a / r, b / r)). set (m := Cmod _) in *. assert ((m - 1) * (m + 1) = 0) by lra. nra.
      + cbn [fst snd]. replace (a / r * a + b / r * b) with ((a ^ 2 + b ^ 2) / r) by (field; auto). rewrite <- R2. field. auto. }
  destruct W as [c0 [H0 W0]]. exists c0. split; [exact H0|]. intros c Hc. apply sqrt_le_1_alt. change (pixel_sum ny nx) with (sum2 ny nx). rewrite !E by auto. rewrite W0. specialize (CS c Hc). lra.
Qed.

Lemma cshift_period ny nx f ty tx (k l : Z) i j : (0 < ny)%Z -> (0 < nx)%Z -> (0 <= i < ny)%Z -> (0 <= j < nx)%Z ->
  cshift ny nx f (ty + IZR k * IZR ny) (tx + IZR l * IZR nx) i j = cshift ny nx f ty tx i j.
Proof.
  intros Hy Hx Hi Hj. rewrite <- !cshift_shifted by auto. assert (Hin : inb [ny; nx] [i; j]) by (cbn; auto).
  rewrite <- (shifted_period [ny; nx] (fun y => RtoC (img2 f y)) [ty; tx] 0 [k; l] [i; j] (pos2 ny nx Hy Hx) eq_refl eq_refl Hin). cbn. f_equal. f_equal; [|f_equal]; ring.
Qed.
Lemma self_distance_half ny nx f c p q ty tx : (0 < ny)%Z -> (0 < nx)%Z ->
  self_distance ny nx f c (IZR (p mod (2 * ny)) / 2) (IZR (q mod (2 * nx)) / 2) ty tx = self_distance ny nx f c (IZR p / 2) (IZR q / 2) ty tx.
Proof.
  intros Hy Hx. unfold self_distance. f_equal. apply sum2_ext. intros i j Hi Hj. f_equal. f_equal. f_equal.
  assert (E : forall z n, (0 < n)%Z -> IZR z / 2 = IZR (z mod (2 * n)) / 2 + IZR (z / (2 * n)) * IZR n).
  { intros z n Hn. assert (Q := Z.div_mod z (2 * n) ltac:(lia)). apply (f_equal IZR) in Q. rewrite plus_IZR, !mult_IZR in Q. lra. }
  rewrite (E p ny Hy), (E q nx Hx). symmetry. apply cshift_period; auto.
Qed.

(** amplitude of the image at the frequency of k waves along y and l waves along x *)
Definition amplitude (ny nx : Z) (f : Z -> Z -> R) (k l : Z) : R :=
  Cmod (sumC ny (fun i => sumC nx (fun j => Cmult (RtoC (f i j)) (cis (- (2 * PI * (IZR k * IZR i / IZR ny + IZR l * IZR j / IZR nx))))))).
Lemma amp_dft ny nx f k l : Cmod (dft [ny; nx] (fun p => RtoC (img2 f p)) [k; l]) = amplitude ny nx f k l.
Proof.
  unfold amplitude. f_equal. unfold dft. rewrite sumNC_cons. apply sumC_ext. intros i HI. rewrite sumNC_cons. apply sumC_ext. intros j HJ. rewrite sumNC_nil. cbn [img2]. f_equal. f_equal. cbn [phZ]. rewrite Rplus_0_r. reflexivity.
Qed.
Lemma freq_low n k : (0 <= k <= (n - 1) / 2)%Z -> fftfreq n k = IZR k / IZR n.
Proof. intros H. unfold fftfreq, fidx. destruct (Z.leb_spec k ((n - 1) / 2)); [reflexivity|lia]. Qed.

(** the image contains two neighbouring low frequencies along y, and two along x *)
Definition neighbours (ny nx : Z) (f : Z -> Z -> R) (k l k' l' : Z) : Prop :=
  (0 <= k)%Z /\ (k + 1 <= (ny - 1) / 2)%Z /\ (0 <= l < nx)%Z /\ (0 <= l')%Z /\ (l' + 1 <= (nx - 1) / 2)%Z /\ (0 <= k' < ny)%Z /\
  0 < amplitude ny nx f k l /\ 0 < amplitude ny nx f (k + 1) l /\ 0 < amplitude ny nx f k' l' /\ 0 < amplitude ny nx f k' (l' + 1).
Theorem C121_register_images_any_flux :
  forall has_fftw im1 im2 usfac ret_err zeromean nthreads use_np ny nx ty tx (p0 q0 : Z) k l k' l',
  shape im1 = [ny; nx] -> shape im2 = [ny; nx] -> (3 <= ny)%Z -> (3 <= nx)%Z -> 2 < usfac ->
  let f1 := prep zeromean im1 ny nx in let f2 := prep zeromean im2 ny nx in
  (forall (p q : Z) c, Cmod c = 1 -> ~ (near_coarse ny usfac (IZR p / 2) ty /\ near_coarse nx usfac (IZR q / 2) tx) ->
     self_distance ny nx f1 (RtoC 1) (IZR p0 / 2) (IZR q0 / 2) ty tx + 2 * mismatch ny nx f1 f2 ty tx < self_distance ny nx f1 c (IZR p / 2) (IZR q / 2) ty tx) ->
  neighbours ny nx f1 k l k' l' ->
  let B := sqrt (IZR (ny * nx)) * (2 * mismatch ny nx f1 f2 ty tx + PI / usfac * norm2 ny nx f1) in
  exists x y,
    register_images has_fftw im1 im2 usfac false ret_err zeromean None nthreads use_np = Ok (nums [x; y] ++ err_out ret_err usfac) /\
    off_by ny (IZR ny * (B * (1 / amplitude ny nx f1 k l + 1 / amplitude ny nx f1 (k + 1) l)) / 4) y ty /\
    off_by nx (IZR nx * (B * (1 / amplitude ny nx f1 k' l' + 1 / amplitude ny nx f1 k' (l' + 1))) / 4) x tx.
Proof.
  intros hf im1 im2 u re zm nt np ny nx ty tx p0 q0 k l k' l' H1 H2 Hy Hx Hu f1 f2 HG [K1 [K2 [K3 [L1 [L2 [L3 [A1 [A2 [A3 A4]]]]]]]]] B.
  destruct (C119_register_images hf im1 im2 u re zm nt np ny nx ty tx p0 q0 H1 H2 ltac:(lia) ltac:(lia) Hu HG) as [x [y [c [E [_ [_ K]]]]]].
  assert (Qy : ((ny - 1) / 2 < ny)%Z) by (Z.to_euclidean_division_equations; lia). assert (Qx : ((nx - 1) / 2 < nx)%Z) by (Z.to_euclidean_division_equations; lia).
  assert (Ny : IZR ny <> 0) by (apply not_0_IZR; lia). assert (Nx : IZR nx <> 0) by (apply not_0_IZR; lia).
  exists x, y. split; [exact E|]. cbv beta zeta in K. fold f1 f2 B in K. split.
  - specialize (K (k + 1)%Z l k l ltac:(lia) ltac:(lia) ltac:(lia) ltac:(lia)). rewrite !amp_dft, !freq_low in K by lia. rewrite plus_IZR in K.
    set (F := amplitude ny nx f1 k l) in *. set (G := amplitude ny nx f1 (k + 1) l) in *.
    match type of K with context [sin ?X] => replace X with (PI * (y - ty) / IZR ny) in K by (field; auto) end.
    replace (IZR ny * (B * (1 / F + 1 / G)) / 4) with (IZR ny * (B * (G + F)) / (4 * (G * F))) by (field; lra). apply off_by_sine; [lia|apply Rmult_lt_0_compat; auto|exact K].
  - specialize (K k' (l' + 1)%Z k' l' ltac:(lia) ltac:(lia) ltac:(lia) ltac:(lia)). rewrite !amp_dft, !(freq_low nx) in K by lia. rewrite plus_IZR in K.
    set (F := amplitude ny nx f1 k' l') in *. set (G := amplitude ny nx f1 k' (l' + 1)) in *.
    match type of K with context [sin ?X] => replace X with (PI * (x - tx) / IZR nx) in K by (field; auto) end.
    replace (IZR nx * (B * (1 / F + 1 / G)) / 4) with (IZR nx * (B * (G + F)) / (4 * (G * F))) by (field; lra). apply off_by_sine; [lia|apply Rmult_lt_0_compat; auto|exact K].
Qed.
Print Assumptions C121_register_images_any_flux.

(** one positive number for finitely many cases *)
Lemma finite_small (n : Z) (Q : Z -> R -> Prop) : (forall p a b, a <= b -> Q p b -> Q p a) ->
  (forall p, (0 <= p < n)%Z -> exists g, 0 < g /\ Q p g) -> exists g, 0 < g /\ forall p, (0 <= p < n)%Z -> Q p g.
Proof.
  intros HQ. destruct (Z_le_gt_dec n 0) as [L|L]; [intros _; exists 1; split; [lra|intros; lia]|].
  pattern n. apply natlike_rec2; [|clear L|lia].
  - intros _. exists 1. split; [lra|intros; lia].
  - intros z Hz IH H. destruct IH as [g [G0 G]]; [intros p Hp; apply H; lia|]. destruct (H z ltac:(lia)) as [g' [G0' G']].
    exists (Rmin g g'). split; [apply Rmin_glb_lt; auto|]. intros p Hp.
    destruct (Z.eq_dec p z) as [->|N]; [apply (HQ _ _ g'); [apply Rmin_r|auto]|apply (HQ _ _ g); [apply Rmin_l|apply G; lia]].
Qed.

(** offset t within half a pixel of p/2, up to whole periods *)
Definition half_near (n p : Z) (t : R) : Prop := exists k : Z, Rabs (t + IZR k * IZR n - IZR p / 2) <= 1 / 2.
Theorem C121_register_convergence :
  forall im1 zeromean ny nx ty tx (p0 q0 : Z) k l k' l',
  shape im1 = [ny; nx] -> (3 <= ny)%Z -> (3 <= nx)%Z ->
  let f1 := prep zeromean im1 ny nx in
  (* half-pixel offsets more than half a pixel from the true shift resemble the shifted image less than one of them, also up to a number of modulus 1 *)
  (forall (p q : Z) c, Cmod c = 1 -> ~ (half_near ny p ty /\ half_near nx q tx) ->
     self_distance ny nx f1 (RtoC 1) (IZR p0 / 2) (IZR q0 / 2) ty tx < self_distance ny nx f1 c (IZR p / 2) (IZR q / 2) ty tx) ->
  neighbours ny nx f1 k l k' l' ->
  forall delta, 0 < delta ->
  exists noise factor, 0 < noise /\
  forall has_fftw im2 usfac ret_err nthreads use_np,
  shape im2 = [ny; nx] -> mismatch ny nx f1 (prep zeromean im2 ny nx) ty tx <= noise -> factor <= usfac ->
  exists x y,
    register_images has_fftw im1 im2 usfac false ret_err zeromean None nthreads use_np = Ok (nums [x; y] ++ err_out ret_err usfac) /\
    off_by ny delta y ty /\ off_by nx delta x tx.
Proof.
  intros im1 zm ny nx ty tx p0 q0 k l k' l' H1 Hy Hx f1 HG HN delta Hd.
  set (d0 := self_distance ny nx f1 (RtoC 1) (IZR p0 / 2) (IZR q0 / 2) ty tx) in *.
  set (Q := fun p q g => ~ (half_near ny p ty /\ half_near nx q tx) -> forall c, Cmod c = 1 -> d0 + g <= self_distance ny nx f1 c (IZR p / 2) (IZR q / 2) ty tx).
  assert (GAP : exists g, 0 < g /\ forall p, (0 <= p < 2 * ny)%Z -> forall q, (0 <= q < 2 * nx)%Z -> Q p q g).
  { apply finite_small.
    - intros p a b Hab HQ q Hq N c Hc. specialize (HQ q Hq N c Hc). lra.
    - intros p Hp. apply finite_small.
      + intros q a b Hab HQ N c Hc. specialize (HQ N c Hc). lra.
      + intros q Hq. destruct (classic (half_near ny p ty /\ half_near nx q tx)) as [T|T]; [exists 1; split; [lra|intros N; contradiction]|].
        destruct (best_unit ny nx (cshift ny nx f1 (IZR p / 2) (IZR q / 2)) (cshift ny nx f1 ty tx)) as [c0 [C0 C1]]. fold (self_distance ny nx f1 c0 (IZR p / 2) (IZR q / 2) ty tx) in C1.
        assert (W := HG p q c0 C0 T). exists (self_distance ny nx f1 c0 (IZR p / 2) (IZR q / 2) ty tx - d0). split; [lra|]. intros _ c Hc. specialize (C1 c Hc). fold (self_distance ny nx f1 c (IZR p / 2) (IZR q / 2) ty tx) in C1. lra. }
  destruct GAP as [g [G0 G]].
  assert (HM : forall n p t, (0 < n)%Z -> half_near n (p mod (2 * n)) t -> half_near n p t).
  { intros n p t Hn [m H]. exists (m + p / (2 * n))%Z. assert (E := Z.div_mod p (2 * n) ltac:(lia)). apply (f_equal IZR) in E. rewrite plus_IZR, !mult_IZR in E. rewrite plus_IZR.
    replace (t + (IZR m + IZR (p / (2 * n))) * IZR n - IZR p / 2) with (t + IZR m * IZR n - IZR (p mod (2 * n)) / 2) by lra. exact H. }
  assert (GG : forall p q c, Cmod c = 1 -> ~ (half_near ny p ty /\ half_near nx q tx) -> d0 + g <= self_distance ny nx f1 c (IZR p / 2) (IZR q / 2) ty tx).
  { intros p q c Hc N. rewrite <- self_distance_half by lia. apply G; auto; try (apply Z.mod_pos_bound; lia). intros [A B]. apply N. split; apply HM; auto; lia. }
  assert (NP := size_pos ny nx ltac:(lia) ltac:(lia)). set (S := sqrt (IZR (ny * nx))). assert (S0 : 0 < S) by (apply sqrt_lt_R0; auto).
  assert (Ny : 0 < IZR ny) by (apply IZR_lt; lia). assert (Nx : 0 < IZR nx) by (apply IZR_lt; lia).
  set (ay := 1 / amplitude ny nx f1 k l + 1 / amplitude ny nx f1 (k + 1) l). set (ax := 1 / amplitude ny nx f1 k' l' + 1 / amplitude ny nx f1 k' (l' + 1)).
  assert (PA : 0 < ay /\ 0 < ax).
  { destruct HN as [_ [_ [_ [_ [_ [_ [A1 [A2 [A3 A4]]]]]]]]]. unfold ay, ax. assert (I : forall z, 0 < z -> 0 < 1 / z) by (intros z Hz; apply Rmult_lt_0_compat; [lra|apply Rinv_0_lt_compat; auto]).
    assert (Q1 := I _ A1). assert (Q2 := I _ A2). assert (Q3 := I _ A3). assert (Q4 := I _ A4). lra. }
  set (b := Rmin (delta * 4 / (IZR ny * ay)) (delta * 4 / (IZR nx * ax))).
  assert (b0 : 0 < b) by (apply Rmin_glb_lt; apply Rmult_lt_0_compat; try lra; apply Rinv_0_lt_compat; apply Rmult_lt_0_compat; lra).
  set (n1 := norm2 ny nx f1). assert (N1 : 0 <= n1) by apply sqrt_pos. assert (P := PI_RGT_0).
  set (r := b / S). assert (r0 : 0 < r) by (apply Rmult_lt_0_compat; [auto|apply Rinv_0_lt_compat; auto]).
  set (c1 := PI * n1 / (r / 2)).
  exists (Rmin (g / 4) (r / 4)), (Rmax 6 c1). split; [apply Rmin_glb_lt; lra|].
  intros hf im2 u re nt np H2 Hm Hk. assert (K6 := Rle_trans _ _ _ (Rmax_l _ _) Hk). assert (Kc := Rle_trans _ _ _ (Rmax_r _ _) Hk).
  assert (M1 := Rle_trans _ _ _ Hm (Rmin_l _ _)). assert (M2 := Rle_trans _ _ _ Hm (Rmin_r _ _)). set (mm := mismatch ny nx f1 (prep zm im2 ny nx) ty tx) in *.
  destruct (C121_register_images_any_flux hf im1 im2 u re zm nt np ny nx ty tx p0 q0 k l k' l') as [x [y [E [Oy Ox]]]]; auto; try lra.
  - fold f1. fold d0. fold mm. intros p q c Hc N. assert (W := GG p q c Hc). assert (W2 : ~ (half_near ny p ty /\ half_near nx q tx)); [|specialize (W W2); lra].
    intros [A B]. apply N. assert (U : 3 / (2 * u) <= 1 / 4) by (apply (Rmult_le_reg_r (4 * u)); [lra|]; replace (3 / (2 * u) * (4 * u)) with 6 by (field; lra); lra).
    destruct A as [m A]. destruct B as [m2 B]. split; [exists m; lra|exists m2; lra].
  - fold f1 in Oy, Ox. fold mm n1 S ay ax in Oy, Ox. exists x, y. split; [exact E|].
    set (B := S * (2 * mm + PI / u * n1)) in *.
    assert (BB : B <= b).
    { unfold B. replace b with (S * r) by (unfold r; field; lra). apply Rmult_le_compat_l; [lra|].
      assert (PI / u * n1 <= r / 2); [|lra]. apply (Rmult_le_reg_r u); [lra|]. replace (PI / u * n1 * u) with (PI * n1) by (field; lra).
      replace (PI * n1) with (r / 2 * c1) by (unfold c1; field; lra). apply Rmult_le_compat_l; lra. }
    assert (W : forall n a, 0 < n -> 0 < a -> B <= delta * 4 / (n * a) -> n * (B * a) / 4 <= delta).
    { intros n a Hn Ha Q1. assert (0 < n * a) by (apply Rmult_lt_0_compat; auto). apply (Rmult_le_compat_r (n * a)) in Q1; [|lra].
      replace (delta * 4 / (n * a) * (n * a)) with (delta * 4) in Q1 by (field; lra). lra. }
    split.
    + destruct Oy as [m Q1]. exists m. refine (Rle_trans _ _ _ Q1 _). apply W; try tauto. refine (Rle_trans _ _ _ BB (Rmin_l _ _)).
    + destruct Ox as [m Q1]. exists m. refine (Rle_trans _ _ _ Q1 _). apply W; try tauto. refine (Rle_trans _ _ _ BB (Rmin_r _ _)).
Qed.
Print Assumptions C121_register_convergence.

Example C121_register_nonvacuous : let f1 := prep false (dot 5 5 1 1) 5 5 in
  (forall (p q : Z) c, Cmod c = 1 -> ~ (half_near 5 p 2 /\ half_near 5 q (-2)) ->
     self_distance 5 5 f1 (RtoC 1) (IZR 4 / 2) (IZR (-4) / 2) 2 (-2) < self_distance 5 5 f1 c (IZR p / 2) (IZR q / 2) 2 (-2)) /\
  neighbours 5 5 f1 0 0 0 0.
Proof.
  cbv zeta. set (f := prep false (dot 5 5 1 1) 5 5).
  assert (S0 : self_distance 5 5 f (RtoC 1) 2 (-2) 2 (-2) = 0).
  { unfold self_distance. match goal with |- sqrt ?X = 0 => replace X with 0; [apply sqrt_0|] end. symmetry. apply sum2_const0. intros i j _ _. cbv beta. rewrite Cmult_1_l. unfold Cminus. rewrite Cplus_opp_r, Cmod_0. ring. }
  assert (A : forall k l, amplitude 5 5 f k l = 1).
  { intros k l. unfold amplitude. apply (dot_wave 5 5 1 1 (fun i j => - (2 * PI * (IZR k * IZR i / IZR 5 + IZR l * IZR j / IZR 5)))); lia. }
  split.
  - intros p q c Hc N. replace (4 / 2) with 2 by lra. replace (-4 / 2) with (-2) by lra. rewrite S0. apply (dot_far 5 5 1 1 2 (-2)); try lia; [exact Hc|].
    intros [W W']. apply N. destruct W as [W|[k W]]; [lia|]. destruct W' as [W'|[l W']]; [lia|]. split; [exists k|exists l].
    + replace (2 + IZR k * 5 - IZR p / 2) with 0 by lra. rewrite Rabs_R0. lra.
    + replace (-2 + IZR l * 5 - IZR q / 2) with 0 by lra. rewrite Rabs_R0. lra.
  - unfold neighbours. rewrite !A. change ((5 - 1) / 2)%Z with 2%Z. repeat split; try lia; lra.
Qed.
