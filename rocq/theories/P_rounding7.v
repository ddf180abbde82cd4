(** C123: register_images with every operation rounded, any upsampling factor *)
From Coq Require Import ZArith Lia List Reals Lra Bool FunctionalExtensionality.
From Coquelicot Require Import Complex.
From Verif Require Import Base NDim DFT Kernel Num Py Sum2 M_fast_ffts M_shift M_scale M_zoom M_upsample M_convolve M_correlate Arg M_chi2 M_xcorr M_register M_rounding M_rounding2 M_rounding3 M_rounding4 M_rounding6 M_rounding7
  Spec L_shift L_scale L_upsample L_convolve Spec2 Spec3 Spec4 L_correlate L_chi2 L_zoom L_register L_register2 L_register3
  L_chi2shift L_fshift L_xcorr P_xcorr P_xcorr2 P_xcorr3 P_chi2map P_chi2errors P_chi2shift P_chi2shift2 P_register P_noise P_rounding P_rounding2 L_iterzoom2 L_rounding3 P_rounding3 P_rounding4 L_rounding6 L_rounding7.
Import ListNotations.
Open Scope R_scope.

(** halves of the integers up to n are not changed by rounding *)
Definition halves_exact (S : sarith) (n : Z) : Prop := forall k, (- n <= k <= n)%Z -> sa_rd S (IZR k / 2) = IZR k / 2.
(** rounding moves neither the size of the fine grid nor the node nearest to a half-pixel position of an axis of n pixels *)
Definition grid_unchanged (S : sarith) (u : R) (n : Z) : Prop :=
  ceilR (sa_rd S (u * (3 / 2))) = ceilR (u * (3 / 2)) /\ forall a, (- n <= a <= n)%Z -> roundR (sa_rd S (IZR a / 2 * u)) = roundR (IZR a / 2 * u).
(** bound on the rounding error of the correlation at a node of the fine grid *)
Definition fine_error (eps mu : R) (zeromean : bool) (im1 im2 : arr num) (ny nx : Z) : R :=
  pixel_sum ny nx (weight zeromean im1 ny nx) * pixel_sum ny nx (weight zeromean im2 ny nx) *
  (((1 + eps) ^ 13 + phase_error mu ny + phase_error mu nx) * (1 + mu) ^ 7 - 1).
(** bound on the rounding error of a reported offset *)
Definition offset_error (mu : R) (n : Z) : R := reach n * ((1 + mu) ^ 3 - 1).

(** the peak of an approximate correlation on the half-pixel grid *)
Lemma grid_near ny nx f g mo h K D : (0 < ny)%Z -> (0 < nx)%Z -> mo_ok mo -> 0 < K ->
  (forall i j, 0 <= h i j) ->
  (forall i j, (0 <= i < ny * 2)%Z -> (0 <= j < nx * 2)%Z -> Rabs (h i j - mag ny nx f g (IZR i / 2) (IZR j / 2) / K) <= D / K) ->
  let '(r, c) := argmax2 (ny * 2) (nx * 2) (maskR (ny * 2) (nx * 2) mo h) in
  let a := (- unwrap (ny * 2) r)%Z in let b := (- unwrap (nx * 2) c)%Z in
  (- ny <= a < ny)%Z /\ (- nx <= b < nx)%Z /\ bounded mo (ny * 2) a /\ bounded mo (nx * 2) b /\
  forall s t, within mo s -> within mo t ->
    Cmod (rcc ny nx f g (IZR s / 2) (IZR t / 2)) <= Cmod (rcc ny nx f g (IZR a / 2) (IZR b / 2)) + 2 * D.
Proof.
  intros Hy Hx HM HK Hh HD. assert (Hyq : (0 < ny * 2)%Z) by lia. assert (Hxq : (0 < nx * 2)%Z) by lia.
  assert (S := masked_argmax (ny * 2) (nx * 2) mo h Hyq Hxq HM Hh).
  destruct (argmax2 _ _ _) as [r c]. destruct S as [Hr [Hc [Ar [Ac S]]]]. cbv zeta.
  assert (B' : forall n, ((n * 2 - 1) / 2 = n - 1)%Z) by (intros; Z.to_euclidean_division_equations; lia).
  assert (R1 := unwrap_range _ _ Hyq Hr). assert (R2 := unwrap_range _ _ Hxq Hc). rewrite Z.div_mul, B' in R1, R2 by lia.
  split; [lia|]. split; [lia|].
  assert (B1 := allowed_bounds _ _ _ Hyq Hr Ar). assert (B2 := allowed_bounds _ _ _ Hxq Hc Ac).
  split; [destruct mo; cbn [bounded]; tauto|]. split; [destruct mo; cbn [bounded]; tauto|].
  intros s t Hs Ht. set (i := ((- s) mod (ny * 2))%Z). set (j := ((- t) mod (nx * 2))%Z).
  assert (Hi : (0 <= i < ny * 2)%Z) by (apply Z.mod_pos_bound; lia). assert (Hj : (0 <= j < nx * 2)%Z) by (apply Z.mod_pos_bound; lia).
  specialize (S i j Hi Hj (allowed_within _ _ _ Hyq Hs) (allowed_within _ _ _ Hxq Ht)).
  assert (N1 := HD i j Hi Hj). assert (N2 := HD r c Hr Hc).
  assert (Q : mag ny nx f g (IZR i / 2) (IZR j / 2) <= mag ny nx f g (IZR r / 2) (IZR c / 2) + 2 * D).
  { apply Rcomplements.Rabs_le_between in N1. apply Rcomplements.Rabs_le_between in N2.
    assert (X : mag ny nx f g (IZR i / 2) (IZR j / 2) / K <= mag ny nx f g (IZR r / 2) (IZR c / 2) / K + 2 * (D / K)) by lra.
    apply (Rmult_le_compat_l K) in X; [|lra]. replace (K * (mag ny nx f g (IZR i / 2) (IZR j / 2) / K)) with (mag ny nx f g (IZR i / 2) (IZR j / 2)) in X by (field; lra).
    replace (K * (mag ny nx f g (IZR r / 2) (IZR c / 2) / K + 2 * (D / K))) with (mag ny nx f g (IZR r / 2) (IZR c / 2) + 2 * D) in X by (field; lra). exact X. }
  unfold mag in Q.
  assert (P : forall n d e, (0 < n)%Z -> ((- d - e) mod (n * 2) = 0)%Z -> whole_period n (- (IZR e / 2) - IZR d / 2)).
  { intros n d e Hn E. assert (W := whole_period_int n (- e) d 2 Hn ltac:(lia)). rewrite opp_IZR in W. unfold Rdiv in W |- *. rewrite <- Ropp_mult_distr_l in W. apply W.
    replace (- e - d)%Z with (- d - e)%Z by lia. exact E. }
  rewrite (rcc_period ny nx f g (- (IZR i / 2)) (- (IZR j / 2)) (IZR s / 2) (IZR t / 2)) in Q; auto.
  2,3: apply P; auto; unfold i, j; rewrite Zminus_mod_idemp_r, Z.sub_diag; apply Z.mod_0_l; lia.
  rewrite (rcc_period ny nx f g (- (IZR r / 2)) (- (IZR c / 2)) (IZR (- unwrap (ny * 2) r) / 2) (IZR (- unwrap (nx * 2) c) / 2)) in Q; auto.
  - apply P; auto. assert (E := unwrap_mod (ny * 2) r Hyq). replace (- - unwrap (ny * 2) r - r)%Z with (- r - - unwrap (ny * 2) r)%Z by lia. exact E.
  - apply P; auto. assert (E := unwrap_mod (nx * 2) c Hxq). replace (- - unwrap (nx * 2) c - c)%Z with (- c - - unwrap (nx * 2) c)%Z by lia. exact E.
Qed.

(** the peak of an approximate correlation on the fine grid *)
Lemma fine_near ny nx f g u a b h K D : 2 < u -> 0 < K ->
  let L := fine_size u in let R0 := roundR (IZR (- a) / 2 * u) in let C0 := roundR (IZR (- b) / 2 * u) in
  (forall i j, (0 <= i < L)%Z -> (0 <= j < L)%Z -> Rabs (h i j - mag ny nx f g (IZR (R0 + i - L / 2) / u) (IZR (C0 + j - L / 2) / u) / K) <= D / K) ->
  let '(i, j) := argmax2 L L h in let A := (- (R0 + i - L / 2))%Z in let B := (- (C0 + j - L / 2))%Z in
  (0 <= i < L)%Z /\ (0 <= j < L)%Z /\ fine_window u (IZR a / 2) A /\ fine_window u (IZR b / 2) B /\
  forall s t, fine_window u (IZR a / 2) s -> fine_window u (IZR b / 2) t -> Cmod (rcc ny nx f g (IZR s / u) (IZR t / u)) <= Cmod (rcc ny nx f g (IZR A / u) (IZR B / u)) + 2 * D.
Proof.
  intros Hu HK L R0 C0 HD. assert (Lp := fine_size_pos u Hu). fold L in Lp.
  assert (Eo : forall z, roundR (IZR (- z) / 2 * u) = (- roundR (IZR z / 2 * u))%Z) by (intros z; rewrite <- roundR_opp; f_equal; rewrite opp_IZR; unfold Rdiv; ring).
  assert (E1 : R0 = (- roundR (IZR a / 2 * u))%Z) by apply Eo. assert (E2 : C0 = (- roundR (IZR b / 2 * u))%Z) by apply Eo.
  assert (S := argmin2_spec L L (fun i j => - h i j) ltac:(lia) ltac:(lia)). fold (argmax2 L L h) in S.
  destruct (argmax2 L L h) as [i j]. destruct S as [Hi [Hj [S _]]]. cbn [fst snd] in *. cbv zeta.
  assert (Ht := half_sum L ltac:(lia)). split; [exact Hi|]. split; [exact Hj|].
  split; [unfold fine_window; fold (fine_size u) L; lia|]. split; [unfold fine_window; fold (fine_size u) L; lia|].
  intros s t Ws Wt. unfold fine_window in Ws, Wt. fold (fine_size u) L in Ws, Wt.
  assert (Hs : (0 <= - R0 - s + L / 2 < L)%Z) by lia. 
  set (i' := (- s - R0 + L / 2)%Z). set (j' := (- t - C0 + L / 2)%Z). assert (Hi' : (0 <= i' < L)%Z) by (unfold i'; lia). assert (Hj' : (0 <= j' < L)%Z) by (unfold j'; lia).
  specialize (S i' j' Hi' Hj'). assert (N1 := HD i' j' Hi' Hj'). assert (N2 := HD i j Hi Hj).
  apply Rcomplements.Rabs_le_between in N1. apply Rcomplements.Rabs_le_between in N2.
  set (M1 := mag ny nx f g (IZR (R0 + i' - L / 2) / u) (IZR (C0 + j' - L / 2) / u)) in *. set (M2 := mag ny nx f g (IZR (R0 + i - L / 2) / u) (IZR (C0 + j - L / 2) / u)) in *.
  assert (X : M1 / K <= M2 / K + 2 * (D / K)) by lra. apply (Rmult_le_compat_l K) in X; [|lra].
  replace (K * (M1 / K)) with M1 in X by (field; lra). replace (K * (M2 / K + 2 * (D / K))) with (M2 + 2 * D) in X by (field; lra).
  unfold M1, M2, mag in X.
  assert (EN : forall z : Z, - (IZR z / u) = IZR (- z) / u) by (intros z; rewrite opp_IZR; unfold Rdiv; ring). rewrite !EN in X.
  replace (- (R0 + i' - L / 2))%Z with s in X by (unfold i'; lia). replace (- (C0 + j' - L / 2))%Z with t in X by (unfold j'; lia). exact X.
Qed.

Section Register.
Variables (A A' : arith) (B : zarith) (S : sarith) (eps T mu : R) (im1 im2 : arr num) (zm : bool) (mo : option Z) (ny nx : Z).
Hypotheses (H1 : shape im1 = [ny; nx]) (H2 : shape im2 = [ny; nx]) (Hy : (0 < ny)%Z) (Hx : (0 < nx)%Z) (HM : mo_ok mo)
  (HA : accurate eps [ny; nx] A) (HA' : accurate eps [ny * 2; nx * 2]%Z A') (HS : accurate_scalar eps (Z.to_nat (ny * nx)) S) (He : eps <= 1 / 2)
  (HR : rounds mu S) (Hmu : mu <= 1 / 4).
Let f := prep zm im1 ny nx.
Let g := prep zm im2 ny nx.
Let SW := pixel_sum ny nx (weight zm im1 ny nx) * pixel_sum ny nx (weight zm im2 ny nx).
Let F1 := ar_fft A (Arr [ny; nx] (fun i => RtoC (nan0 (get (zero_mean_rd S zm im1) i)))).
Let F2 := ar_fft A (Arr [ny; nx] (fun i => RtoC (nan0 (get (zero_mean_rd S zm im2) i)))).
Let D1 := fun i j => dft [ny; nx] (fun y => RtoC (img2 f y)) [i; j].
Let D2 := fun i j => dft [ny; nx] (fun y => RtoC (img2 g y)) [i; j].
Let e0 : 0 <= eps. Proof. exact (proj1 HA). Qed.
Let pw n : 1 <= (1 + eps) ^ n. Proof. apply pow_R1_Rle. lra. Qed.

Lemma fft1_near i j : (0 <= i < ny)%Z -> (0 <= j < nx)%Z -> nearC ((1 + eps) ^ 4) (pixel_sum ny nx (weight zm im1 ny nx)) (g2 F1 i j) (D1 i j).
Proof.
  intros Hi Hj. change ((1 + eps) ^ 4) with ((1 + eps) * (1 + eps) ^ 3). apply (near_fft eps ny nx A (fun i => nan0 (get (zero_mean_rd S zm im1) i)) f); auto.
  intros a b Ha Hb. apply (near_zero_mean eps _ S HS); auto.
Qed.
Lemma fft2_near i j : (0 <= i < ny)%Z -> (0 <= j < nx)%Z -> nearC ((1 + eps) ^ 4) (pixel_sum ny nx (weight zm im2 ny nx)) (g2 F2 i j) (D2 i j).
Proof.
  intros Hi Hj. change ((1 + eps) ^ 4) with ((1 + eps) * (1 + eps) ^ 3). apply (near_fft eps ny nx A (fun i => nan0 (get (zero_mean_rd S zm im2) i)) g); auto.
  intros a b Ha Hb. apply (near_zero_mean eps _ S HS); auto.
Qed.
Lemma P12_near i j : (0 <= i < ny)%Z -> (0 <= j < nx)%Z -> nearC ((1 + eps) ^ 9) SW (ar_mul A' (g2 F1 i j) (Cconj (g2 F2 i j))) (Cmult (D1 i j) (Cconj (D2 i j))).
Proof.
  intros Hi Hj. replace ((1 + eps) ^ 9) with ((1 + eps) * ((1 + eps) ^ 4 * (1 + eps) ^ 4)) by ring.
  apply (nearC_mul eps _ A' _ _ _ _ _ _ _ _ HA'); [apply fft1_near; auto|apply nearC_conj, fft2_near; auto].
Qed.
Lemma P21_near i j : (0 <= i < ny)%Z -> (0 <= j < nx)%Z -> nearC ((1 + eps) ^ 9) SW (ar_mul A' (g2 F2 i j) (Cconj (g2 F1 i j))) (Cmult (D2 i j) (Cconj (D1 i j))).
Proof.
  intros Hi Hj. replace ((1 + eps) ^ 9) with ((1 + eps) * ((1 + eps) ^ 4 * (1 + eps) ^ 4)) by ring. unfold SW. rewrite (Rmult_comm (pixel_sum ny nx (weight zm im1 ny nx))).
  apply (nearC_mul eps _ A' _ _ _ _ _ _ _ _ HA'); [apply fft2_near; auto|apply nearC_conj, fft1_near; auto].
Qed.
Lemma rd_nonneg x : 0 <= x -> 0 <= sa_rd S x.
Proof.
  intros X. assert (Q := proj2 HR x). rewrite (Rabs_right x) in Q by lra. apply Rcomplements.Rabs_le_between in Q. assert (mu * x <= 1 / 4 * x) by (apply Rmult_le_compat_r; lra). lra.
Qed.
Lemma rd_0 : sa_rd S 0 = 0.
Proof. assert (Q := proj2 HR 0). rewrite Rabs_R0, Rmult_0_r in Q. apply Rcomplements.Rabs_le_between in Q. lra. Qed.
Lemma SW_nonneg : 0 <= SW.
Proof. unfold SW. assert (Z1 := nearC_M _ _ _ _ (fft1_near 0 0 ltac:(lia) ltac:(lia))). assert (Z2 := nearC_M _ _ _ _ (fft2_near 0 0 ltac:(lia) ltac:(lia))). apply Rmult_le_pos; auto. Qed.

(** the half-pixel search *)
Lemma coarse_fp_near : let '(r, c) := peak_fp S (ny * 2) (nx * 2) (coarse_cc_fp A' ny nx F1 F2 mo) in
  let a := (- unwrap (ny * 2) r)%Z in let b := (- unwrap (nx * 2) c)%Z in
  (- ny <= a < ny)%Z /\ (- nx <= b < nx)%Z /\ bounded mo (ny * 2) a /\ bounded mo (nx * 2) b /\
  forall s t, within mo s -> within mo t ->
    Cmod (rcc ny nx f g (IZR s / 2) (IZR t / 2)) <= Cmod (rcc ny nx f g (IZR a / 2) (IZR b / 2)) + 2 * peak_error eps zm im1 im2 ny nx.
Proof.
  set (P' := fun i j => ar_mul A' (g2 F1 i j) (Cconj (g2 F2 i j))).
  set (h := fun i j => sa_rd S (Cmod (g2 (ar_ifft A' (larger ny nx P')) i j))).
  assert (E : peak_fp S (ny * 2) (nx * 2) (coarse_cc_fp A' ny nx F1 F2 mo) = argmax2 (ny * 2) (nx * 2) (maskR (ny * 2) (nx * 2) mo h)).
  { unfold peak_fp. apply argmax2_ext'; try lia. intros i j _ _. unfold coarse_cc_fp. 
    change (mk2 (ny * 2) (nx * 2) _) with (larger ny nx P'). rewrite Cmod_limit. destruct mo as [k|]; cbn [maskR]; [|reflexivity]. destruct (_ || _)%bool; [apply rd_0|reflexivity]. }
  rewrite E. apply (grid_near ny nx f g mo h 4); auto; try lra.
  - intros i j. apply rd_nonneg, Cmod_ge_0.
  - intros i j Hi Hj. assert (Q := near_coarse eps ny nx Hy Hx A' f g P' ((1 + eps) ^ 9) SW HA' (pw 9) P12_near i j Hi Hj). change ((1 + eps) * (1 + eps) ^ 9) with ((1 + eps) ^ 10) in Q.
    assert (Q2 := near_rdp S eps ny nx HS 10 _ _ _ Q). change (1 + 10)%nat with 11%nat in Q2. destruct Q2 as [_ [Q2 _]]. refine (Rle_trans _ _ _ Q2 _). right. unfold peak_error. fold SW. field.
Qed.

(** the refinement *)
Lemma refine_fp_near u a b : 2 < u -> (- ny <= a < ny)%Z -> (- nx <= b < nx)%Z -> accurate_zoom eps T [ny; nx] B ->
  halves_exact S (ceilR (u * (3 / 2))) -> grid_unchanged S u ny -> grid_unchanged S u nx ->
  PI * reach ny * (1 + mu) ^ 12 <= T -> PI * reach nx * (1 + mu) ^ 12 <= T ->
  exists r c C E, refine_fp A' B S ny nx ny nx F1 F2 u (IZR (- a) / 2) (IZR (- b) / 2) = Ok (r, c) /\
    fine_window u (IZR a / 2) C /\ fine_window u (IZR b / 2) E /\
    Rabs (- r - IZR C / u) <= offset_error mu ny /\ Rabs (- c - IZR E / u) <= offset_error mu nx /\
    forall s t, fine_window u (IZR a / 2) s -> fine_window u (IZR b / 2) t ->
      Cmod (rcc ny nx f g (IZR s / u) (IZR t / u)) <= Cmod (rcc ny nx f g (IZR C / u) (IZR E / u)) + 2 * fine_error eps mu zm im1 im2 ny nx.
Proof.
  intros Hu Ha Hb HB Hhalf [Gs Gy] [_ Gx] HTy HTx. unfold refine_fp.
  assert (Lp := fine_size_pos u Hu). set (L := fine_size u) in *. assert (m0 := proj1 HR).
  rewrite (Gy (- a)%Z) by lia. rewrite (Gx (- b)%Z) by lia. rewrite Gs. fold (fine_size u). fold L. rewrite (Hhalf L) by (unfold L, fine_size in *; lia). rewrite truncR_half by lia. 
  set (R0 := roundR (IZR (- a) / 2 * u)). set (C0 := roundR (IZR (- b) / 2 * u)).
  set (row0 := sa_rd S (IZR R0 / u)). set (col0 := sa_rd S (IZR C0 / u)).
  set (roff := sa_rd S (IZR (L / 2) - sa_rd S (row0 * u))). set (coff := sa_rd S (IZR (L / 2) - sa_rd S (col0 * u))). cbv zeta.
  assert (NY : 0 < IZR ny) by (apply IZR_lt; auto).
  unfold dftups_fp. cbn [shape mk2]. destruct (Req_EM_T (IZR ny * u) 0) as [Z0|_]; [exfalso; assert (0 < IZR ny * u) by (apply Rmult_lt_0_compat; lra); lra|].
  cbv zeta. cbn [bind shape mk2]. rewrite arange_len_IZR by lia.
  match goal with |- context [peak_fp S L L ?X] => set (cc := X) end.
  assert (CE : forall i j, (0 <= i < L)%Z -> (0 <= j < L)%Z ->
    Rabs (sa_rd S (Cmod (cc i j)) - mag ny nx f g (IZR (R0 + i - L / 2) / u) (IZR (C0 + j - L / 2) / u) / u ^ 2) <= fine_error eps mu zm im1 im2 ny nx / u ^ 2).
  { intros i j Hi Hj. unfold cc. unfold g2 at 1. cbn [get mk2].
    match goal with |- context [Cconj ?Z] => set (z' := Z) end.
    set (P := fun k l => Cmult (D2 k l) (Cconj (D1 k l))). set (p := IZR (R0 + i - L / 2) / u). set (q := IZR (C0 + j - L / 2) / u).
    set (z := ups_val ny nx (fun k => Cmult (dft [ny; nx] (fun y => RtoC (img2 g y)) k) (Cconj (dft [ny; nx] (fun y => RtoC (img2 f y)) k))) p q).
    assert (N1 : nearC ((1 + eps) ^ 4 * (1 + eps) ^ 9 + phase_error mu ny + phase_error mu nx) (IZR (ny * nx) * SW) z' z).
    { unfold z', z, ups_val. apply (near_matrix eps T B ny nx mu (fun i j => ar_mul A' (g2 F2 i j) (Cconj (g2 F1 i j))) P); auto.
      - intros k Hk. unfold np_ifftshift. rewrite ifftshift_fidx by auto. unfold row0 in roff. apply (row_phase mu S u HR Hmu Hu ny (- a)); auto. lia.
      - intros l Hl. unfold np_ifftshift. rewrite ifftshift_fidx by auto. apply (col_phase mu S u HR Hu nx (- b)); auto. lia.
      - apply P21_near. }
    apply nearC_conj in N1. assert (NP : 0 < IZR (ny * nx)) by (apply IZR_lt; nia).
    assert (Q := near_cdiv mu S u HR Hmu Hu (IZR (ny * nx)) _ SW _ _ NP N1).
    assert (EZ : Cconj z = Cmult (RtoC (IZR (ny * nx))) (rcc ny nx f g (- p) (- q))) by (apply rcc_fine; auto).
    assert (EM : Cmod (Cconj z) / IZR (ny * nx) / u ^ 2 = mag ny nx f g p q / u ^ 2).
    { rewrite EZ, Cmod_mult, Cmod_R, Rabs_right by lra. unfold mag. field. split; lra. }
    rewrite EM in Q. destruct Q as [_ [Q _]]. refine (Rle_trans _ _ _ Q _). right. unfold fine_error. fold SW. replace ((1 + eps) ^ 4 * (1 + eps) ^ 9) with ((1 + eps) ^ 13) by ring. field. lra. }
  assert (U2 : 0 < u ^ 2) by (apply pow_lt; lra).
  assert (FN := fine_near ny nx f g u a b (fun i j => sa_rd S (Cmod (cc i j))) (u ^ 2) (fine_error eps mu zm im1 im2 ny nx) Hu U2 CE).
  fold L R0 C0 in FN. unfold peak_fp. destruct (argmax2 L L _) as [i j]. destruct FN as [Hi [Hj [W1 [W2 M]]]].
  eexists _, _, _, _. split; [reflexivity|]. split; [exact W1|]. split; [exact W2|].
  assert (EN : forall x (z : Z), - x - IZR (- z) / u = - (x - IZR z / u)) by (intros x z; rewrite opp_IZR; unfold Rdiv; ring). rewrite !EN, !Rabs_Ropp.
  split; [apply (offset_near mu S u HR Hu ny (- a)); auto; lia|]. split; [apply (offset_near mu S u HR Hu nx (- b)); auto; lia|]. exact M.
Qed.
End Register.

Lemma register_fp_found A A' B S im1 im2 u re zm mo ny nx : shape im1 = [ny; nx] -> shape im2 = [ny; nx] -> (0 < ny)%Z -> (0 < nx)%Z -> u <> 0 -> u <> 1 ->
  (forall X, shape X = [ny; nx] -> shape (ar_fft A X) = [ny; nx]) ->
  let F1 := ar_fft A (Arr [ny; nx] (fun i => RtoC (nan0 (get (zero_mean_rd S zm im1) i)))) in
  let F2 := ar_fft A (Arr [ny; nx] (fun i => RtoC (nan0 (get (zero_mean_rd S zm im2) i)))) in
  register_images_fp A A' B S im1 im2 u re zm mo =
    (let '(r, c) := peak_fp S (ny * 2) (nx * 2) (coarse_cc_fp A' ny nx F1 F2 mo) in
     let row2 := sa_rd S (IZR (unwrap (ny * 2) r) / 2) in let col2 := sa_rd S (IZR (unwrap (nx * 2) c) / 2) in
     let! fine := (if Rlt_dec 2 u then refine_fp A' B S ny nx ny nx F1 F2 u row2 col2 else Ok (row2, col2)) in
     let '(r, c) := fine in
     Ok ([RgNum (- (if (nx =? 1)%Z then 0 else c)); RgNum (- (if (ny =? 1)%Z then 0 else r))] ++ (if re then [RgNum (sa_rd S (1 / u)); RgNum (sa_rd S (1 / u))] else []))).
Proof.
  intros H1 H2 Hy Hx U0 U1 HF F1 F2. unfold register_images_fp. rewrite H1, H2. destruct (list_eq_dec Z.eq_dec [ny; nx] [ny; nx]) as [_|N]; [|congruence]. cbn [negb].
  cbv zeta. rewrite check_fft_ok by auto using pos2. cbn [bind]. destruct (Req_EM_T u 0) as [|_]; [contradiction|]. fold F1 F2. assert (SF : shape F1 = [ny; nx]) by (apply HF; reflexivity). rewrite SF.
  destruct (Req_EM_T u 1) as [|_]; [contradiction|]. destruct (peak_fp S (ny * 2) (nx * 2) _) as [r c].
  rewrite !truncR_half, !Z.div_mul by lia. destruct (if Rlt_dec 2 u then _ else _) as [[r' c']|e]; cbn [bind]; reflexivity.
Qed.

(** *** any upsampling factor above 2 *)
Theorem C123_register_images :
  forall A A' B S eps T mu im1 im2 u ret_err zeromean maxoff ny nx,
  shape im1 = [ny; nx] -> shape im2 = [ny; nx] -> (0 < ny)%Z -> (0 < nx)%Z -> mo_ok maxoff -> 2 < u ->
  accurate eps [ny; nx] A -> accurate eps [ny * 2; nx * 2]%Z A' -> accurate_zoom eps T [ny; nx] B -> accurate_scalar eps (Z.to_nat (ny * nx)) S -> eps <= 1 / 2 ->
  rounds mu S -> mu <= 1 / 4 ->
  halves_exact S (ny + nx + ceilR (u * (3 / 2))) -> grid_unchanged S u ny -> grid_unchanged S u nx ->
  PI * reach ny * (1 + mu) ^ 12 <= T -> PI * reach nx * (1 + mu) ^ 12 <= T ->
  let f := prep zeromean im1 ny nx in let g := prep zeromean im2 ny nx in
  exists a b C D dx dy e, register_images_fp A A' B S im1 im2 u ret_err zeromean maxoff = Ok (nums [dx; dy] ++ (if ret_err : bool then nums [e; e] else [])) /\
    (* the offsets are a node of the fine grid around the half-pixel position (a/2, b/2) *)
    fine_window u (IZR a / 2) C /\ fine_window u (IZR b / 2) D /\
    Rabs (dy - (if (ny =? 1)%Z then 0 else IZR C / u)) <= offset_error mu ny /\ Rabs (dx - (if (nx =? 1)%Z then 0 else IZR D / u)) <= offset_error mu nx /\
    Rabs (e - 1 / u) <= mu / u /\
    (* which is within the rounding errors of the highest point of the half-pixel grid *)
    (- ny <= a < ny)%Z /\ (- nx <= b < nx)%Z /\ bounded maxoff (ny * 2) a /\ bounded maxoff (nx * 2) b /\
    (forall s t, within maxoff s -> within maxoff t ->
       Cmod (rcc ny nx f g (IZR s / 2) (IZR t / 2)) <= Cmod (rcc ny nx f g (IZR a / 2) (IZR b / 2)) + 2 * peak_error eps zeromean im1 im2 ny nx) /\
    (* the node is within the rounding errors of the highest node *)
    (forall s t, fine_window u (IZR a / 2) s -> fine_window u (IZR b / 2) t ->
       Cmod (rcc ny nx f g (IZR s / u) (IZR t / u)) <= Cmod (rcc ny nx f g (IZR C / u) (IZR D / u)) + 2 * fine_error eps mu zeromean im1 im2 ny nx).
Proof.
  intros A A' B S eps T mu im1 im2 u re zm mo ny nx H1 H2 Hy Hx HM Hu HA HA' HB HS He HR Hmu HH Gy Gx HTy HTx f g. assert (m0 := proj1 HR).
  rewrite (register_fp_found A A' B S im1 im2 u re zm mo ny nx H1 H2 Hy Hx ltac:(lra) ltac:(lra)) by (intros X HX; exact (proj1 (proj1 (proj2 HA) X HX))). cbv zeta.
  assert (CN := coarse_fp_near A A' S eps mu im1 im2 zm mo ny nx H1 H2 Hy Hx HM HA HA' HS HR Hmu).
  destruct (peak_fp _ _ _ _) as [r c]. destruct CN as [Ra [Rb [Ba [Bb CN]]]]. set (a := (- unwrap (ny * 2) r)%Z) in *. set (b := (- unwrap (nx * 2) c)%Z) in *.
  assert (Lp := fine_size_pos u Hu). unfold fine_size in Lp.
  replace (unwrap (ny * 2) r) with (- a)%Z by (unfold a; lia). replace (unwrap (nx * 2) c) with (- b)%Z by (unfold b; lia). rewrite !HH by lia.
  destruct (Rlt_dec 2 u) as [_|N]; [|contradiction].
  assert (HH' : halves_exact S (ceilR (u * (3 / 2)))) by (intros k Hk; apply HH; lia).
  destruct (refine_fp_near A A' B S eps T mu im1 im2 zm ny nx H1 H2 Hy Hx HA HA' HS HR Hmu u a b Hu Ra Rb HB HH' Gy Gx HTy HTx) as [r' [c' [C [D [E [W1 [W2 [O1 [O2 M]]]]]]]]].
  rewrite E. cbn [bind]. exists a, b, C, D. eexists _, _, (sa_rd S (1 / u)). split; [destruct re; reflexivity|]. split; [exact W1|]. split; [exact W2|].
  assert (OE : forall n, (0 < n)%Z -> 0 <= offset_error mu n).
  { intros n Hn. apply IZR_lt in Hn. assert (1 <= (1 + mu) ^ 3) by (apply pow_R1_Rle; lra). unfold offset_error, reach. apply Rmult_le_pos; lra. }
  split; [destruct (ny =? 1)%Z; [replace (- 0 - 0) with 0 by ring; rewrite Rabs_R0; auto|exact O1]|].
  split; [destruct (nx =? 1)%Z; [replace (- 0 - 0) with 0 by ring; rewrite Rabs_R0; auto|exact O2]|].
  split; [refine (Rle_trans _ _ _ (proj2 HR (1 / u)) _); rewrite Rabs_right; [right; unfold Rdiv; ring|left; apply Rdiv_lt_0_compat; lra]|].
  repeat (split; [assumption|]). exact M.
Qed.
Print Assumptions C123_register_images.

(** *** the highest points are clear of the rounding errors: same node as exact arithmetic *)
Theorem C123_same_answer :
  forall A A' B S eps T mu has_fftw im1 im2 u ret_err zeromean maxoff nthreads use_np ny nx a b C D,
  shape im1 = [ny; nx] -> shape im2 = [ny; nx] -> (1 < ny)%Z -> (1 < nx)%Z -> mo_ok maxoff -> 2 < u ->
  accurate eps [ny; nx] A -> accurate eps [ny * 2; nx * 2]%Z A' -> accurate_zoom eps T [ny; nx] B -> accurate_scalar eps (Z.to_nat (ny * nx)) S -> eps <= 1 / 2 ->
  rounds mu S -> mu <= 1 / 4 ->
  halves_exact S (ny + nx + ceilR (u * (3 / 2))) -> grid_unchanged S u ny -> grid_unchanged S u nx ->
  PI * reach ny * (1 + mu) ^ 12 <= T -> PI * reach nx * (1 + mu) ^ 12 <= T ->
  let f := prep zeromean im1 ny nx in let g := prep zeromean im2 ny nx in
  let corr := fun s t : R => Cmod (rcc ny nx f g s t) in
  (* (a/2, b/2) is the highest point of the half-pixel grid by more than the rounding errors *)
  within maxoff a -> within maxoff b ->
  (forall s t, (- ny <= s < ny)%Z -> (- nx <= t < nx)%Z -> (s, t) <> (a, b) ->
     corr (IZR s / 2) (IZR t / 2) + 2 * peak_error eps zeromean im1 im2 ny nx < corr (IZR a / 2) (IZR b / 2)) ->
  (* (C/u, D/u) is the highest node around it by more than the rounding errors *)
  fine_window u (IZR a / 2) C -> fine_window u (IZR b / 2) D ->
  (forall s t, fine_window u (IZR a / 2) s -> fine_window u (IZR b / 2) t -> (s, t) <> (C, D) ->
     corr (IZR s / u) (IZR t / u) + 2 * fine_error eps mu zeromean im1 im2 ny nx < corr (IZR C / u) (IZR D / u)) ->
  register_images has_fftw im1 im2 u false ret_err zeromean maxoff nthreads use_np = Ok (nums [IZR D / u; IZR C / u] ++ err_out ret_err u) /\
  exists dx dy e, register_images_fp A A' B S im1 im2 u ret_err zeromean maxoff = Ok (nums [dx; dy] ++ (if ret_err : bool then nums [e; e] else [])) /\
    Rabs (dx - IZR D / u) <= offset_error mu nx /\ Rabs (dy - IZR C / u) <= offset_error mu ny /\ Rabs (e - 1 / u) <= mu / u.
Proof.
  intros A A' B S eps T mu hf im1 im2 u re zm mo nt np ny nx a b C D H1 H2 Hy Hx HM Hu HA HA' HB HS He HR Hmu HH Gy Gx HTy HTx f g corr Wa Wb U1 WC WD U2.
  assert (m0 := proj1 HR). assert (e0 := proj1 HA). assert (Hy' : (0 < ny)%Z) by lia. assert (Hx' : (0 < nx)%Z) by lia.
  assert (W0 : 0 <= pixel_sum ny nx (weight zm im1 ny nx) * pixel_sum ny nx (weight zm im2 ny nx)) by (apply (SW_nonneg A S eps im1 im2 zm ny nx); auto).
  assert (D1 : 0 <= peak_error eps zm im1 im2 ny nx) by (unfold peak_error; assert (1 <= (1 + eps) ^ 11) by (apply pow_R1_Rle; lra); apply Rmult_le_pos; lra).
  assert (D2 : 0 <= fine_error eps mu zm im1 im2 ny nx).
  { unfold fine_error. assert (1 <= (1 + eps) ^ 13) by (apply pow_R1_Rle; lra). assert (Q7 : 1 <= (1 + mu) ^ 7) by (apply pow_R1_Rle; lra). assert (1 <= (1 + mu) ^ 12) by (apply pow_R1_Rle; lra).
    assert (PP := PI_RGT_0). assert (PE : forall n, (0 < n)%Z -> 0 <= phase_error mu n) by (intros n Hn; apply IZR_lt in Hn; unfold phase_error, reach; apply Rmult_le_pos; [apply Rmult_le_pos; lra|lra]).
    assert (E1 := PE ny Hy'). assert (E2 := PE nx Hx'). apply Rmult_le_pos; [exact W0|].
    assert (1 * 1 <= ((1 + eps) ^ 13 + phase_error mu ny + phase_error mu nx) * (1 + mu) ^ 7) by (apply Rmult_le_compat; lra). lra. }
  assert (ND2 : forall p q : Z * Z, {p = q} + {p <> q}) by (decide equality; apply Z.eq_dec).
  assert (N1 : (ny =? 1)%Z = false) by (apply Z.eqb_neq; lia). assert (N2 : (nx =? 1)%Z = false) by (apply Z.eqb_neq; lia).
  assert (UA : forall a' b' K, (- ny <= a' < ny)%Z -> (- nx <= b' < nx)%Z -> K <= 2 * peak_error eps zm im1 im2 ny nx ->
    corr (IZR a / 2) (IZR b / 2) <= corr (IZR a' / 2) (IZR b' / 2) + K -> (a', b') = (a, b)).
  { intros a' b' K Q1 Q2 QK Q. destruct (ND2 (a', b') (a, b)) as [E|E]; [exact E|exfalso]. specialize (U1 a' b' Q1 Q2 E). lra. }
  assert (UC : forall C' D' K, fine_window u (IZR a / 2) C' -> fine_window u (IZR b / 2) D' -> K <= 2 * fine_error eps mu zm im1 im2 ny nx ->
    corr (IZR C / u) (IZR D / u) <= corr (IZR C' / u) (IZR D' / u) + K -> (C', D') = (C, D)).
  { intros C' D' K Q1 Q2 QK Q. destruct (ND2 (C', D') (C, D)) as [E|E]; [exact E|exfalso]. specialize (U2 C' D' Q1 Q2 E). lra. }
  split.
  - destruct (register_fine hf im1 im2 u re zm mo nt np ny nx H1 H2 Hy' Hx' HM Hu) as [a' [b' [C' [D' [E [R1 [R2 [_ [_ [M1 [W1 [W2 M2]]]]]]]]]]]].
    assert (X := UA a' b' 0 R1 R2 ltac:(lra) ltac:(specialize (M1 a b Wa Wb); unfold corr, f, g; lra)). injection X as -> ->.
    assert (X := UC C' D' 0 W1 W2 ltac:(lra) ltac:(specialize (M2 C D WC WD); unfold corr, f, g; lra)). injection X as -> ->.
    rewrite E, N1, N2. reflexivity.
  - destruct (C123_register_images A A' B S eps T mu im1 im2 u re zm mo ny nx H1 H2 Hy' Hx' HM Hu HA HA' HB HS He HR Hmu HH Gy Gx HTy HTx)
      as [a' [b' [C' [D' [dx [dy [e [E [W1 [W2 [O1 [O2 [O3 [R1 [R2 [_ [_ [M1 M2]]]]]]]]]]]]]]]]]].
    assert (X := UA a' b' _ R1 R2 (Rle_refl _) (M1 a b Wa Wb)). injection X as -> ->.
    assert (X := UC C' D' _ W1 W2 (Rle_refl _) (M2 C D WC WD)). injection X as -> ->.
    rewrite N1 in O1. rewrite N2 in O2. exists dx, dy, e. split; [exact E|]. split; [exact O2|]. split; [exact O1|exact O3].
Qed.
Print Assumptions C123_same_answer.

(** *** factors up to 2: the half-pixel grid only *)
Theorem C123_half :
  forall A A' B S eps mu has_fftw im1 im2 u ret_err zeromean maxoff nthreads use_np ny nx a b,
  shape im1 = [ny; nx] -> shape im2 = [ny; nx] -> (1 < ny)%Z -> (1 < nx)%Z -> mo_ok maxoff -> u <> 0 -> u <> 1 -> u <= 2 ->
  accurate eps [ny; nx] A -> accurate eps [ny * 2; nx * 2]%Z A' -> accurate_scalar eps (Z.to_nat (ny * nx)) S -> eps <= 1 / 2 ->
  rounds mu S -> mu <= 1 / 4 -> halves_exact S (ny + nx) ->
  let f := prep zeromean im1 ny nx in let g := prep zeromean im2 ny nx in
  let corr := fun s t : R => Cmod (rcc ny nx f g s t) in
  within maxoff a -> within maxoff b -> (- ny <= a < ny)%Z -> (- nx <= b < nx)%Z ->
  (forall s t, (- ny <= s < ny)%Z -> (- nx <= t < nx)%Z -> (s, t) <> (a, b) ->
     corr (IZR s / 2) (IZR t / 2) + 2 * peak_error eps zeromean im1 im2 ny nx < corr (IZR a / 2) (IZR b / 2)) ->
  register_images has_fftw im1 im2 u false ret_err zeromean maxoff nthreads use_np = Ok (nums [IZR b / 2; IZR a / 2] ++ err_out ret_err u) /\
  exists e, register_images_fp A A' B S im1 im2 u ret_err zeromean maxoff = Ok (nums [IZR b / 2; IZR a / 2] ++ (if ret_err : bool then nums [e; e] else [])) /\
    Rabs (e - 1 / u) <= mu * Rabs (1 / u).
Proof.
  intros A A' B S eps mu hf im1 im2 u re zm mo nt np ny nx a b H1 H2 Hy Hx HM U0 U1 U2 HA HA' HS He HR Hmu HH f g corr Wa Wb Ra Rb UQ.
  assert (e0 := proj1 HA). assert (Hy' : (0 < ny)%Z) by lia. assert (Hx' : (0 < nx)%Z) by lia.
  assert (W0 : 0 <= pixel_sum ny nx (weight zm im1 ny nx) * pixel_sum ny nx (weight zm im2 ny nx)) by (apply (SW_nonneg A S eps im1 im2 zm ny nx); auto).
  assert (D1 : 0 <= peak_error eps zm im1 im2 ny nx) by (unfold peak_error; assert (1 <= (1 + eps) ^ 11) by (apply pow_R1_Rle; lra); apply Rmult_le_pos; lra).
  assert (ND2 : forall p q : Z * Z, {p = q} + {p <> q}) by (decide equality; apply Z.eq_dec).
  assert (N1 : (ny =? 1)%Z = false) by (apply Z.eqb_neq; lia). assert (N2 : (nx =? 1)%Z = false) by (apply Z.eqb_neq; lia).
  assert (UA : forall a' b' K, (- ny <= a' < ny)%Z -> (- nx <= b' < nx)%Z -> K <= 2 * peak_error eps zm im1 im2 ny nx ->
    corr (IZR a / 2) (IZR b / 2) <= corr (IZR a' / 2) (IZR b' / 2) + K -> (a', b') = (a, b)).
  { intros a' b' K Q1 Q2 QK Q. destruct (ND2 (a', b') (a, b)) as [E|E]; [exact E|exfalso]. specialize (UQ a' b' Q1 Q2 E). lra. }
  split.
  - destruct (register_half hf im1 im2 u re zm mo nt np ny nx H1 H2 Hy' Hx' HM U0 U1 U2) as [a' [b' [E [R1 [R2 [_ [_ M1]]]]]]].
    assert (X := UA a' b' 0 R1 R2 ltac:(lra) ltac:(specialize (M1 a b Wa Wb); unfold corr, f, g; lra)). injection X as -> ->. rewrite E, N1, N2. reflexivity.
  - rewrite (register_fp_found A A' B S im1 im2 u re zm mo ny nx H1 H2 Hy' Hx' U0 U1) by (intros X HX; exact (proj1 (proj1 (proj2 HA) X HX))). cbv zeta.
    assert (CN := coarse_fp_near A A' S eps mu im1 im2 zm mo ny nx H1 H2 Hy' Hx' HM HA HA' HS HR Hmu).
    destruct (peak_fp _ _ _ _) as [r c]. destruct CN as [Ra' [Rb' [_ [_ CN]]]].
    assert (X := UA _ _ _ Ra' Rb' (Rle_refl _) (CN a b Wa Wb)). injection X as Xa Xb.
    replace (unwrap (ny * 2) r) with (- a)%Z by lia. replace (unwrap (nx * 2) c) with (- b)%Z by lia. rewrite !HH by lia.
    destruct (Rlt_dec 2 u) as [N|_]; [lra|]. cbn [bind]. rewrite N1, N2. exists (sa_rd S (1 / u)). split; [|apply (proj2 HR)].
    assert (EN : forall z : Z, - (IZR (- z) / 2) = IZR z / 2) by (intros z; rewrite opp_IZR; field). rewrite !EN. destruct re; reflexivity.
Qed.
Print Assumptions C123_half.

(** *** exact operations *)
Lemma dftups_fp_exact hf nt np inp nor noc u roff coff : dftups_fp (exact_zarith hf nt np) exact_sarith inp nor noc u roff coff = dftups inp (Some nor) (Some noc) u roff coff.
Proof. reflexivity. Qed.
Lemma cdiv_fp_exact z d : d <> 0 -> cdiv_fp exact_sarith z d = Cdiv z (RtoC d).
Proof.
  intros Hd. unfold cdiv_fp, Cdiv, Cmult, Cinv, RtoC, Re, Im. cbn [exact_sarith sa_rd fst snd]. f_equal; field; auto.
Qed.
Lemma check_fft_pos sh x : check_fft sh = Ok x -> pos_shape sh.
Proof. unfold check_fft. destruct (pos_shapeb sh) eqn:E; [|discriminate]. intros _. apply pos_shapeb_spec; auto. Qed.
Theorem C123_exact :
  forall has_fftw im1 im2 u ret_err zeromean maxoff nthreads use_np,
  register_images_fp (exact_arith has_fftw nthreads use_np) (exact_arith has_fftw 1 false) (exact_zarith has_fftw 1 false) exact_sarith im1 im2 u ret_err zeromean maxoff =
  register_images has_fftw im1 im2 u false ret_err zeromean maxoff nthreads use_np.
Proof.
  intros hf im1 im2 u re zm mo nt np. unfold register_images_fp, register_images. rewrite !zero_mean_exact. destruct (negb _); [reflexivity|]. cbv zeta.
  assert (SF := fun a => proj1 (get_ffts_fwd hf nt np a)). unfold exact_arith, dftregistration. destruct (get_ffts hf nt np) as [fw iv]. cbn [fst snd ar_fft] in *.
  destruct (check_fft (shape im1)) as [x|e] eqn:CF; [|reflexivity]. apply check_fft_pos in CF. cbn [bind].
  set (B1 := fw _). assert (SB := SF (Arr (shape im1) (fun i => RtoC (nan0 (get (zero_mean zm im1) i))))). fold B1 in SB. cbn [shape] in SB. rewrite <- SB in CF. set (B2 := fw (Arr (shape im1) (fun i => RtoC (nan0 (get (zero_mean zm im2) i))))). clearbody B1 B2.
  unfold coarse_cc_fp, refine_fp. cbn [ar_fft ar_ifft ar_mul]. destruct (get_ffts hf 1 false) as [fw' iv']. cbn [fst snd].
  destruct (Req_EM_T u 0) as [|U0]; [reflexivity|]. destruct (shape B1) as [|m [|n [|]]]; try reflexivity.
  apply pos_shape_cons in CF. destruct CF as [Hm CF]. apply pos_shape_cons in CF. destruct CF as [Hn _].
  destruct (Req_EM_T u 1) as [|U1].
  - change (peak_fp exact_sarith) with peak. destruct (peak m n _) as [r c]. cbn [bind]. destruct re; reflexivity.
  - change (peak_fp exact_sarith) with peak. destruct (peak (m * 2) (n * 2) _) as [r c]. destruct (Rlt_dec 2 u) as [Hu|Hu].
    + cbn [sa_rd exact_sarith]. rewrite dftups_fp_exact. rewrite !(truncR_half (m * 2)), !(truncR_half (n * 2)), !Z.div_mul by lia.
      match goal with |- bind (bind (bind ?D _) _) _ = _ => destruct D as [ups|e] end; [|reflexivity]. cbn [bind].
      destruct (shape ups) as [|h [|w [|]]]; try reflexivity.
      assert (NZ : IZR (m * n) * u ^ 2 <> 0) by (apply Rmult_integral_contrapositive; split; [apply IZR_neq0; nia|apply pow_nonzero; auto]).
      replace (fun i j => cdiv_fp exact_sarith (Cconj (g2 ups i j)) (IZR (m * n) * u ^ 2)) with (fun i j => Cdiv (Cconj (g2 ups i j)) (RtoC (IZR m * IZR n * u ^ 2))).
      * destruct (peak h w _) as [i j]. cbn [bind]. destruct re; reflexivity.
      * apply functional_extensionality. intros i. apply functional_extensionality. intros j. rewrite cdiv_fp_exact by exact NZ. rewrite mult_IZR. reflexivity.
    + cbn [bind sa_rd exact_sarith]. destruct re; reflexivity.
Qed.
Print Assumptions C123_exact.

(** *** factor 1: the whole-pixel search of C113 *)
Theorem C123_whole :
  forall A A' B S im1 im2 ret_err zeromean maxoff, sa_rd S 1 = 1 ->
  register_images_fp A A' B S im1 im2 1 ret_err zeromean maxoff = register_images_rd A A' S im1 im2 ret_err zeromean maxoff.
Proof.
  intros A A' B S im1 im2 re zm mo H. unfold register_images_fp, register_images_rd. destruct (negb _); [reflexivity|]. cbv zeta. destruct (check_fft _); [|reflexivity]. cbn [bind].
  destruct (Req_EM_T 1 0) as [|_]; [lra|]. destruct (Req_EM_T 1 1) as [_|N]; [|lra]. replace (sa_rd S (1 / 1)) with (1 / 1) by (replace (1 / 1) with 1 by field; auto).
  destruct (shape _) as [|m [|n [|]]]; try reflexivity.
Qed.
Print Assumptions C123_whole.
