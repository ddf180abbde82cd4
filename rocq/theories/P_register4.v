(** Property C85: sub-pixel shifts recovered by register_images *)
From Coq Require Import ZArith Lia List Reals Lra Bool.
From Coquelicot Require Import Complex.
From Verif Require Import Base NDim DFT Kernel Num Py M_fast_ffts M_shift M_upsample Arg M_chi2 M_xcorr M_register
  Spec L_shift L_scale L_upsample Sum2 Spec2 Spec3 Spec4 L_chi2 L_chi2shift L_fshift L_xcorr P_chi2errors P_xcorr P_xcorr2 P_xcorr3
  L_register L_register2 L_register3 P_register P_register2.
Import ListNotations.
Open Scope R_scope.

(** g is f Fourier-shifted by (ty, tx) (so the shift is real-valued: automatic on odd sizes) *)
Definition is_fshift (ny nx : Z) (f g : Z -> Z -> R) (ty tx : R) : Prop :=
  forall y x, (0 <= y < ny)%Z -> (0 <= x < nx)%Z -> cshift ny nx f ty tx y x = RtoC (g y x).
(** t and s differ by at most w, up to whole periods of n pixels *)
Definition near (n : Z) (w t s : R) : Prop := exists k : Z, Rabs (t - s - IZR k * IZR n) <= w.
(** the half-pixel grid point nearest the true shift (ty, tx) is found by the coarse search: points farther than w from it
    have a smaller |correlation| than some half-pixel point within maxoff *)
Definition coarse_ok (ny nx : Z) (f g : Z -> Z -> R) (maxoff : option Z) (w ty tx : R) : Prop :=
  forall a b : Z, ~ (near ny w (IZR a / 2) ty /\ near nx w (IZR b / 2) tx) ->
    exists a' b', within maxoff a' /\ within maxoff b' /\
      Cmod (rcc ny nx f g (IZR a / 2) (IZR b / 2)) < Cmod (rcc ny nx f g (IZR a' / 2) (IZR b' / 2)).

Section fauto.
  Variables (ny nx : Z) (f g : Z -> Z -> R) (dy dx : R).
  Hypothesis (Hy : (0 < ny)%Z) (Hx : (0 < nx)%Z).
  Hypothesis (Hr : is_fshift ny nx f g dy dx).
  Let E0 := sum2 ny nx (fun i j => f i j ^ 2).

  Lemma fenergy : sum2 ny nx (fun i j => g i j ^ 2) = E0.
  Proof.
    unfold E0. rewrite <- (energy_cshift ny nx f Hy Hx dy dx). apply sum2_ext. intros i j Hi Hj. rewrite Hr by auto. rewrite Cmod_R, pow2_abs. reflexivity.
  Qed.
  Lemma frcc_at : rcc ny nx f g dy dx = RtoC E0.
  Proof.
    unfold rcc. rewrite <- fenergy. unfold sum2.
    assert (E : forall n (h : Z -> R), sumC n (fun i => RtoC (h i)) = RtoC (sumR n h)) by (intros n h; exact (sumNC_RtoC [n] (fun l => match l with [i] => h i | _ => 0 end))).
    rewrite <- E. apply sumC_ext. intros i Hi. rewrite <- E. apply sumC_ext. intros j Hj. rewrite Hr by auto. rewrite <- RtoC_mult. f_equal. ring.
  Qed.
  Lemma fgap ty tx (c : C) : let z := rcc ny nx f g ty tx in
    sum2 ny nx (fun i j => Cmod (Cminus (cshift ny nx f ty tx i j) (Cmult c (RtoC (g i j)))) ^ 2) =
    E0 - 2 * (Re c * Re z + Im c * Im z) + Cmod c ^ 2 * E0.
  Proof.
    cbv zeta.
    rewrite (sum2_ext ny nx _ (fun i j => Cmod (cshift ny nx f ty tx i j) ^ 2 - 2 * (Re c * (Re (cshift ny nx f ty tx i j) * g i j) + Im c * (Im (cshift ny nx f ty tx i j) * g i j)) + Cmod c ^ 2 * g i j ^ 2)).
    2:{ intros i j Hi Hj. rewrite !sqC. destruct (cshift ny nx f ty tx i j) as [a b], c as [p q]. unfold Re, Im. cbn. ring. }
    rewrite sum2_plus, sum2_minus, energy_cshift, !sum2_scal, sum2_plus, !sum2_scal, fenergy by auto. fold E0.
    assert (R1 : Re (rcc ny nx f g ty tx) = sum2 ny nx (fun i j => Re (cshift ny nx f ty tx i j) * g i j)).
    { unfold rcc, sum2. rewrite Re_sumC. apply sumR_ext. intros i Hi. rewrite Re_sumC. apply sumR_ext. intros j Hj. unfold Re. cbn. ring. }
    assert (R2 : Im (rcc ny nx f g ty tx) = sum2 ny nx (fun i j => Im (cshift ny nx f ty tx i j) * g i j)).
    { unfold rcc, sum2. rewrite Im_sumC. apply sumR_ext. intros i Hi. rewrite Im_sumC. apply sumR_ext. intros j Hj. unfold Im. cbn. ring. }
    rewrite R1, R2. ring.
  Qed.
  Lemma fE0_nonneg : 0 <= E0.
  Proof. apply sum2_nonneg. intros. apply pow2_ge_0. Qed.

  Lemma frcc_le ty tx : Cmod (rcc ny nx f g ty tx) <= E0.
  Proof.
    set (z := rcc ny nx f g ty tx). assert (P := fE0_nonneg).
    assert (G : forall c, 0 <= E0 - 2 * (Re c * Re z + Im c * Im z) + Cmod c ^ 2 * E0).
    { intros c. unfold z. rewrite <- fgap. apply sum2_nonneg. intros. apply pow2_ge_0. }
    assert (Z := Cmod_ge_0 z). destruct (Rle_lt_or_eq_dec 0 E0 P) as [L|L].
    - specialize (G (Cmult (RtoC (/ E0)) z)). rewrite Cmod_mult, Cmod_R, Rabs_right in G by (left; apply Rinv_0_lt_compat; auto).
      assert (EE : Re (Cmult (RtoC (/ E0)) z) * Re z + Im (Cmult (RtoC (/ E0)) z) * Im z = / E0 * Cmod z ^ 2).
      { rewrite sqC. unfold Re, Im. cbn. ring. }
      rewrite EE in G. replace (E0 - 2 * (/ E0 * Cmod z ^ 2) + (/ E0 * Cmod z) ^ 2 * E0) with (/ E0 * (E0 ^ 2 - Cmod z ^ 2)) in G by (field; lra).
      assert (H : 0 <= E0 ^ 2 - Cmod z ^ 2).
      { apply (Rmult_le_reg_l (/ E0)); [apply Rinv_0_lt_compat; auto|]. lra. }
      apply Rnot_lt_le. intros Q. nra.
    - specialize (G (z)). rewrite <- L in G. assert (0 <= - 2 * Cmod z ^ 2) by (rewrite sqC; lra). nra.
  Qed.

  (** a shift reaching the maximum reproduces g up to a unit factor *)
  Lemma frcc_eq ty tx : Cmod (rcc ny nx f g ty tx) = E0 ->
    exists c, Cmod c = 1 /\ forall y x, (0 <= y < ny)%Z -> (0 <= x < nx)%Z -> cshift ny nx f ty tx y x = Cmult c (RtoC (g y x)).
  Proof.
    intros L. set (z := rcc ny nx f g ty tx) in *.
    assert (A : exists c, Cmod c = 1 /\ sum2 ny nx (fun i j => Cmod (Cminus (cshift ny nx f ty tx i j) (Cmult c (RtoC (g i j)))) ^ 2) = 0).
    { destruct (Req_EM_T E0 0) as [E|E].
      - exists (RtoC 1). rewrite Cmod_R, Rabs_R1. split; [reflexivity|]. rewrite fgap. fold z. rewrite E in L |- *. apply Cmod_eq_0 in L. rewrite L. cbn. ring.
      - exists (Cmult (RtoC (/ E0)) z). assert (P := fE0_nonneg). rewrite Cmod_mult, Cmod_R, Rabs_right by (left; apply Rinv_0_lt_compat; lra).
        rewrite L. split; [field; auto|]. rewrite fgap. fold z. rewrite Cmod_mult, Cmod_R, Rabs_right by (left; apply Rinv_0_lt_compat; lra).
        assert (EE : Re (Cmult (RtoC (/ E0)) z) * Re z + Im (Cmult (RtoC (/ E0)) z) * Im z = / E0 * Cmod z ^ 2).
        { rewrite sqC. unfold Re, Im. cbn. ring. }
        rewrite EE, L. field. auto. }
    destruct A as [c [Hc H0]]. exists c. split; [exact Hc|]. intros y x HY HX.
    assert (W := sum2_nonneg_0 ny nx (fun i j => Cmod (Cminus (cshift ny nx f ty tx i j) (Cmult c (RtoC (g i j)))) ^ 2) ltac:(intros; apply pow2_ge_0) H0 _ _ HY HX). cbv beta in W.
    simpl in W. rewrite Rmult_1_r in W. apply Rsqr_0_uniq in W. apply Cmod_eq_0 in W.
    replace (cshift ny nx f ty tx y x) with (Cplus (Cminus (cshift ny nx f ty tx y x) (Cmult c (RtoC (g y x)))) (Cmult c (RtoC (g y x)))) by ring.
    rewrite W. ring.
  Qed.
  Lemma frcc_period ty tx : no_phase_symmetry ny nx f -> Cmod (rcc ny nx f g ty tx) = E0 ->
    whole_period ny (ty - dy) /\ whole_period nx (tx - dx).
  Proof.
    intros Hn L. destruct (frcc_eq ty tx L) as [c [Hc H]]. apply (Hn _ _ c Hc). intros y x HY HX.
    assert (Hp := pos2 ny nx Hy Hx). assert (Hi := inb2_intro ny nx y x HY HX).
    rewrite <- cshift_shifted by auto.
    transitivity (shifted [ny; nx] (shifted [ny; nx] (fun y => RtoC (img2 f y)) [ty; tx] 0) [- dy; - dx] 0 [y; x]).
    { rewrite shifted_comp by auto. cbn [addR zipw]. rewrite Rplus_0_r. do 2 f_equal. }
    rewrite (shifted_ext _ _ (fun i => Cplus (Cmult c (shifted [ny; nx] (fun y => RtoC (img2 f y)) [dy; dx] 0 i)) (Cmult (RtoC 0) (RtoC 0)))).
    2:{ intros i Hin. apply inb2 in Hin. destruct Hin as [p [q [-> [Hp' Hq']]]]. rewrite !cshift_shifted by auto. rewrite H, Hr by auto. ring. }
    rewrite (shifted_lin [ny; nx] (fun i => shifted [ny; nx] (fun y => RtoC (img2 f y)) [dy; dx] 0 i) (fun _ => RtoC 0)).
    rewrite Cmult_0_l, Cplus_0_r. f_equal. change (fun i => shifted [ny; nx] (fun y => RtoC (img2 f y)) [dy; dx] 0 i) with (shifted [ny; nx] (fun y => RtoC (img2 f y)) [dy; dx] 0).
    rewrite shifted_comp by auto. cbn [addR zipw]. rewrite !Rplus_opp_r, Rplus_0_r.
    rewrite (shifted_zero [ny; nx]) by auto. reflexivity.
  Qed.
End fauto.

(** the shift (y, x) maps f onto g: exactly up to a factor of modulus one, and it is the true shift (ty, tx) up to whole periods
    unless f has a translational (anti)symmetry *)
Definition recovers (ny nx : Z) (f g : Z -> Z -> R) (ty tx y x : R) : Prop :=
  (exists c : C, Cmod c = 1 /\ forall i j, (0 <= i < ny)%Z -> (0 <= j < nx)%Z -> cshift ny nx f y x i j = Cmult c (RtoC (g i j))) /\
  (no_phase_symmetry ny nx f -> whole_period ny (y - ty) /\ whole_period nx (x - tx)).

Lemma recovers_max ny nx f g ty tx y x : (0 < ny)%Z -> (0 < nx)%Z -> is_fshift ny nx f g ty tx ->
  Cmod (rcc ny nx f g ty tx) <= Cmod (rcc ny nx f g y x) -> recovers ny nx f g ty tx y x.
Proof.
  intros Hy Hx Hr L. rewrite (frcc_at ny nx f g ty tx Hy Hx Hr), Cmod_R, Rabs_right in L by (apply Rle_ge, (fE0_nonneg ny nx f)).
  assert (E : Cmod (rcc ny nx f g y x) = sum2 ny nx (fun i j => f i j ^ 2)).
  { apply Rle_antisym; [|exact L]. apply (frcc_le ny nx f g ty tx Hy Hx Hr). }
  split; [apply (frcc_eq ny nx f g ty tx Hy Hx Hr y x E)|]. intros Hn. apply (frcc_period ny nx f g ty tx Hy Hx Hr y x Hn E).
Qed.

(** half-pixel shifts are recovered at every even factor (and at usfac=2, or any factor up to 2 other than 0 and 1) *)
Theorem C85_half_pixel_shifts_recovered :
  forall has_fftw im1 im2 usfac ret_err zeromean maxoff nthreads use_np ny nx p q,
  shape im1 = [ny; nx] -> shape im2 = [ny; nx] -> (2 <= ny)%Z -> (2 <= nx)%Z -> mo_ok maxoff ->
  usfac <> 0 -> usfac <> 1 -> (usfac <= 2 \/ exists k : Z, usfac = IZR (2 * k)) ->
  let f := prep zeromean im1 ny nx in let g := prep zeromean im2 ny nx in
  is_fshift ny nx f g (IZR p / 2) (IZR q / 2) -> within maxoff p -> within maxoff q -> no_phase_symmetry ny nx f ->
  exists y x,
    register_images has_fftw im1 im2 usfac false ret_err zeromean maxoff nthreads use_np = Ok (nums [x; y] ++ err_out ret_err usfac) /\
    whole_period ny (y - IZR p / 2) /\ whole_period nx (x - IZR q / 2).
Proof.
  intros hf im1 im2 u re zm mo nt np ny nx p q H1 H2 Hy Hx HM U0 U1 U f g Hr Wp Wq Hn.
  destruct (Rle_dec u 2) as [U2|U2].
  - destruct (C53_half_pixel_maximum hf im1 im2 u re zm mo nt np ny nx H1 H2 Hy Hx HM U0 U1 U2) as [a [b [E [_ [_ M]]]]].
    exists (IZR a / 2), (IZR b / 2). split; [exact E|]. apply (recovers_max ny nx f g (IZR p / 2) (IZR q / 2)); auto; lia.
  - destruct U as [U|[k ->]]; [contradiction|]. apply Rnot_le_lt in U2.
    destruct (C53_upsampled_maximum hf im1 im2 (IZR (2 * k)) re zm mo nt np ny nx H1 H2 Hy Hx HM U2) as [a [b [A [B [E [_ [_ [M [_ [_ [F _]]]]]]]]]]].
    exists (IZR A / IZR (2 * k)), (IZR B / IZR (2 * k)). split; [exact E|].
    apply (recovers_max ny nx f g (IZR p / 2) (IZR q / 2)); auto; try lia.
    apply (Rle_trans _ _ _ (M p q Wp Wq)).
    assert (K : 0 < IZR k) by (rewrite mult_IZR in U2; lra).
    assert (Q : forall a, IZR (k * a) / IZR (2 * k) = IZR a / 2) by (intros; rewrite !mult_IZR; field; lra).
    assert (W : forall a, Rabs (IZR (k * a) / IZR (2 * k) - IZR a / 2) <= 3 / 4 - 1 / IZR (2 * k)).
    { intros a'. rewrite Q, Rminus_eq_0, Rabs_R0. assert (1 / IZR (2 * k) <= 1 / 2); [|lra]. unfold Rdiv. rewrite !Rmult_1_l. apply Rinv_le_contravar; lra. }
    specialize (F (k * a)%Z (k * b)%Z (W a) (W b)). rewrite !Q in F. exact F.
Qed.
Print Assumptions C85_half_pixel_shifts_recovered.

(** shifts on the grid of 1/usfac are recovered exactly when the coarse search ends in their neighbourhood *)
Theorem C85_grid_shifts_recovered :
  forall has_fftw im1 im2 U ret_err zeromean maxoff nthreads use_np ny nx p q,
  shape im1 = [ny; nx] -> shape im2 = [ny; nx] -> (2 <= ny)%Z -> (2 <= nx)%Z -> mo_ok maxoff -> (3 <= U)%Z ->
  let f := prep zeromean im1 ny nx in let g := prep zeromean im2 ny nx in
  let ty := IZR p / IZR U in let tx := IZR q / IZR U in
  is_fshift ny nx f g ty tx -> coarse_ok ny nx f g maxoff (3 / 4 - 1 / IZR U) ty tx ->
  exists y x,
    register_images has_fftw im1 im2 (IZR U) false ret_err zeromean maxoff nthreads use_np = Ok (nums [x; y] ++ err_out ret_err (IZR U)) /\
    recovers ny nx f g ty tx y x.
Proof.
  intros hf im1 im2 U re zm mo nt np ny nx p q H1 H2 Hy Hx HM HU f g ty tx Hr Hc.
  assert (U3 : 3 <= IZR U) by (apply IZR_le; auto).
  destruct (C53_upsampled_maximum hf im1 im2 (IZR U) re zm mo nt np ny nx H1 H2 Hy Hx HM ltac:(lra)) as [a [b [A [B [E [_ [_ [M [_ [_ [F _]]]]]]]]]]].
  exists (IZR A / IZR U), (IZR B / IZR U). split; [exact E|].
  apply recovers_max; auto; try lia.
  assert (N : near ny (3 / 4 - 1 / IZR U) (IZR a / 2) ty /\ near nx (3 / 4 - 1 / IZR U) (IZR b / 2) tx).
  { destruct (Classical_Prop.classic (near ny (3 / 4 - 1 / IZR U) (IZR a / 2) ty /\ near nx (3 / 4 - 1 / IZR U) (IZR b / 2) tx)) as [Y|Y]; [exact Y|].
    destruct (Hc a b Y) as [a' [b' [Wa [Wb L]]]]. specialize (M a' b' Wa Wb). fold f g in M. lra. }
  destruct N as [[k Nk] [l Nl]].
  assert (Q : forall p k n, IZR (p + k * n * U) / IZR U = IZR p / IZR U + IZR k * IZR n) by (intros; rewrite plus_IZR, !mult_IZR; field; lra).
  specialize (F (p + k * ny * U)%Z (q + l * nx * U)%Z). rewrite !Q in F. fold ty tx in F.
  assert (G : forall t s z w, Rabs (t - s - z) <= w -> Rabs (s + z - t) <= w) by (intros; rewrite <- Rabs_Ropp; replace (- (s + z - t)) with (t - s - z) by ring; auto).
  specialize (F (G _ _ _ _ Nk) (G _ _ _ _ Nl)). fold f g in F.
  rewrite (rcc_period ny nx f g (ty + IZR k * IZR ny) (tx + IZR l * IZR nx) ty tx) in F; auto; try lia.
  - right. exists k. ring.
  - right. exists l. ring.
Qed.
Print Assumptions C85_grid_shifts_recovered.

(** *** the coarse condition cannot be dropped *)
Lemma frcc_spectrum ny nx f g dy dx sy sx : (0 < ny)%Z -> (0 < nx)%Z -> is_fshift ny nx f g dy dx ->
  rcc ny nx f g sy sx = Cmult (RtoC (/ IZR (prodZ [ny; nx])))
    (sumNC [ny; nx] (fun k => Cmult (RtoC (Cmod (dft [ny; nx] (fun y => RtoC (img2 f y)) k) ^ 2)) (cis (2 * PI * fdot [ny; nx] k [dy - sy; dx - sx])))).
Proof.
  intros Hy Hx Hr. rewrite <- (Ropp_involutive sy) at 1. rewrite <- (Ropp_involutive sx) at 1. rewrite <- rcc_fourier by auto.
  f_equal. apply sumNC_ext. intros k Hk. assert (Hp := pos2 ny nx Hy Hx).
  rewrite (dft_ext [ny; nx] (fun y => RtoC (img2 g y)) (shifted [ny; nx] (fun y => RtoC (img2 f y)) [dy; dx] 0)).
  2:{ intros i Hi. apply inb2 in Hi. destruct Hi as [p [q [-> [Hp' Hq']]]]. rewrite cshift_shifted by auto. symmetry. apply Hr; auto. }
  rewrite dft_shifted by auto. rewrite Cconj_mult, <- cis_opp_conj, Ropp_involutive, sq_Cmod.
  assert (E : fdot [ny; nx] k [dy - sy; dx - sx] = fdot [ny; nx] k [dy; dx] + fdot [ny; nx] k [- sy; - sx]).
  { apply inb2 in Hk. destruct Hk as [p [q [-> _]]]. cbn [fdot]. ring. }
  rewrite E, cis_2pi_plus. ring.
Qed.

(** cos(4 pi x / 5) plus half a pixel's worth of a point source *)
Definition ripple (y x : Z) : R := cos (2 * PI * (2 * IZR x / 5)) + (if ((y =? 0) && (x =? 0))%Z then 1 / 2 else 0).
Definition at2 (a b : Z) (k : list Z) : C := match k with [p; q] => ind ((p =? a) && (q =? b))%Z | _ => RtoC 0 end.
Lemma sum_at2 ny nx a b h : (0 <= a < ny)%Z -> (0 <= b < nx)%Z -> sumNC [ny; nx] (fun k => Cmult (at2 a b k) (h k)) = h [a; b].
Proof.
  intros Ha Hb. rewrite (sumNC_single _ _ [a; b]).
  - cbn [at2]. rewrite !Z.eqb_refl. cbn [andb ind]. ring.
  - apply inb2_intro; auto.
  - intros i Hi Hne. apply inb2 in Hi. destruct Hi as [y [x [-> _]]]. cbn [at2].
    destruct (Z.eqb_spec y a), (Z.eqb_spec x b); cbn [andb ind]; subst; [congruence| | |]; ring.
Qed.
Definition ripple_spec (k : list Z) : C := Cplus (RtoC (1 / 2)) (Cmult (RtoC (15 / 2)) (Cplus (at2 0 2 k) (at2 0 3 k))).

Lemma cis_pair t s (k : Z) : s = IZR k - t -> Cplus (cis (2 * PI * t)) (cis (2 * PI * s)) = RtoC (2 * cos (2 * PI * t)).
Proof.
  intros ->. replace (2 * PI * (IZR k - t)) with (- (2 * PI * t) + 2 * PI * IZR k) by ring. rewrite cis_period, cis_opp_conj.
  unfold cis, Cplus, Cconj, RtoC. cbn [fst snd]. f_equal; ring.
Qed.

Lemma ripple_dft k : inb [3; 5]%Z k -> dft [3; 5]%Z (fun y => RtoC (img2 ripple y)) k = ripple_spec k.
Proof.
  intros Hk. assert (Hp : pos_shape [3; 5]%Z) by (apply pos2; lia).
  rewrite (dft_ext [3; 5]%Z _ (idft [3; 5]%Z ripple_spec)).
  - rewrite dft_idft by (auto; apply (inb_length _ _ Hk)). rewrite modl_small by auto. reflexivity.
  - intros i Hi. apply inb2 in Hi. destruct Hi as [y [x [-> [Hy Hx]]]]. cbn [img2].
    unfold idft, ripple_spec.
    rewrite (sumNC_ext [3; 5]%Z _ (fun k => Cplus (Cmult (RtoC (1 / 2)) (cis (2 * PI * phZ [3; 5]%Z k [y; x])))
       (Cmult (RtoC (15 / 2)) (Cplus (Cmult (at2 0 2 k) (cis (2 * PI * phZ [3; 5]%Z k [y; x]))) (Cmult (at2 0 3 k) (cis (2 * PI * phZ [3; 5]%Z k [y; x]))))))) by (intros; ring).
    rewrite sumNC_plus, !sumNC_scal, sumNC_plus, ortho by auto. rewrite !(sum_at2 3 5) by lia.
    assert (P15 : prodZ [3; 5]%Z = 15%Z) by reflexivity. rewrite P15. cbn [phZ].
    rewrite (cis_pair _ _ x) by lra.
    assert (EQ : ind (eqmodb [3; 5]%Z [y; x]) = RtoC (if ((y =? 0) && (x =? 0))%Z then 1 else 0)).
    { cbn [eqmodb]. rewrite andb_true_r. assert (M : forall n a, (0 <= a < n)%Z -> ((a mod n =? 0) = (a =? 0))%Z) by (intros; rewrite Z.mod_small by auto; reflexivity).
      rewrite !M by auto. destruct (y =? 0)%Z, (x =? 0)%Z; reflexivity. }
    rewrite EQ. unfold ripple. rewrite <- !RtoC_mult, <- RtoC_plus, <- RtoC_mult. f_equal.
    replace (2 * PI * (0 * IZR y / 3 + (2 * IZR x / 5 + 0))) with (2 * PI * (2 * IZR x / 5)) by field.
    destruct ((y =? 0) && (x =? 0))%Z; field.
Qed.

Lemma ripple_rcc g dy dx sy sx : is_fshift 3 5 ripple g dy dx ->
  rcc 3 5 ripple g sy sx = Cplus (Cmult (RtoC (1 / 4)) (Dn [3; 5]%Z [dy - sy; dx - sx])) (RtoC (17 / 2 * cos (2 * PI * (2 * (dx - sx) / 5)))).
Proof.
  intros Hr. rewrite (frcc_spectrum 3 5 ripple g dy dx) by (auto; lia). unfold Dn. assert (P15 : prodZ [3; 5]%Z = 15%Z) by reflexivity. rewrite P15.
  rewrite (sumNC_ext [3; 5]%Z _ (fun k => Cplus (Cmult (RtoC (1 / 4)) (cis (2 * PI * fdot [3; 5]%Z k [dy - sy; dx - sx])))
     (Cmult (RtoC (255 / 4)) (Cplus (Cmult (at2 0 2 k) (cis (2 * PI * fdot [3; 5]%Z k [dy - sy; dx - sx]))) (Cmult (at2 0 3 k) (cis (2 * PI * fdot [3; 5]%Z k [dy - sy; dx - sx]))))))).
  2:{ intros k Hk. rewrite ripple_dft by auto.
      assert (E : RtoC (Cmod (ripple_spec k) ^ 2) = Cplus (RtoC (1 / 4)) (Cmult (RtoC (255 / 4)) (Cplus (at2 0 2 k) (at2 0 3 k)))).
      { apply inb2 in Hk. destruct Hk as [p [q [-> _]]]. unfold ripple_spec. cbn [at2].
        destruct (Z.eqb_spec p 0), (Z.eqb_spec q 2), (Z.eqb_spec q 3); try lia; cbn [andb ind]; rewrite <- ?RtoC_plus, <- ?RtoC_mult, <- ?RtoC_plus, Cmod_R, pow2_abs; f_equal; field. }
      rewrite E. ring. }
  rewrite sumNC_plus, !sumNC_scal, sumNC_plus, !(sum_at2 3 5) by lia. cbn [fdot].
  assert (F0 : fftfreq 3 0 = 0) by (unfold fftfreq; cbn; field). assert (F2 : fftfreq 5 2 = 2 / 5) by reflexivity. assert (F3 : fftfreq 5 3 = - (2 / 5)) by (unfold fftfreq; cbn; field).
  rewrite F0, F2, F3. rewrite (cis_pair _ _ 0%Z) by lra.
  replace (2 * PI * (0 * (dy - sy) + (2 / 5 * (dx - sx) + 0))) with (2 * PI * (2 * (dx - sx) / 5)) by field.
  rewrite Cmult_plus_distr_l, <- !RtoC_mult. f_equal; [ring|]. f_equal. field.
Qed.

Lemma Dn_le_1 sh t : pos_shape sh -> Cmod (Dn sh t) <= 1.
Proof.
  intros Hp. unfold Dn. rewrite Cmod_mult, Cmod_R.
  assert (P : 0 < IZR (prodZ sh)) by (apply IZR_lt, prodZ_pos; auto).
  rewrite Rabs_right by (left; apply Rinv_0_lt_compat; auto).
  assert (L : Cmod (sumNC sh (fun k => cis (2 * PI * fdot sh k t))) <= IZR (prodZ sh)).
  { eapply Rle_trans; [apply Cmod_sumNC|]. rewrite (sumNR_ext sh _ (fun _ => 1)) by (intros; apply Cmod_cis). rewrite sumNR_const by auto. lra. }
  apply (Rmult_le_reg_l (IZR (prodZ sh))); [auto|]. rewrite <- Rmult_assoc, Rinv_r by lra. lra.
Qed.
Lemma ripple_bounds g dy dx sy sx : is_fshift 3 5 ripple g dy dx ->
  17 / 2 * Rabs (cos (2 * PI * (2 * (dx - sx) / 5))) - 1 / 4 <= Cmod (rcc 3 5 ripple g sy sx) <=
  17 / 2 * Rabs (cos (2 * PI * (2 * (dx - sx) / 5))) + 1 / 4.
Proof.
  intros Hr. rewrite (ripple_rcc g dy dx) by auto. set (z := Dn _ _). set (c := cos _).
  assert (Z1 : Cmod (Cmult (RtoC (1 / 4)) z) <= 1 / 4).
  { rewrite Cmod_mult, Cmod_R, Rabs_right by lra. assert (H := Dn_le_1 [3; 5]%Z [dy - sy; dx - sx] (pos2 3 5 ltac:(lia) ltac:(lia))). fold z in H. lra. }
  assert (C1 : Cmod (RtoC (17 / 2 * c)) = 17 / 2 * Rabs c) by (rewrite Cmod_R, Rabs_mult, (Rabs_right (17 / 2)) by lra; reflexivity).
  set (v := RtoC (17 / 2 * c)) in *. set (u := Cmult (RtoC (1 / 4)) z) in *. split.
  - assert (T := Cmod_triangle (Cplus u v) (Copp u)). rewrite Cmod_opp in T. replace (Cplus (Cplus u v) (Copp u)) with v in T by ring. lra.
  - assert (T := Cmod_triangle u v). lra.
Qed.
(** cosines of odd multiples of pi/5 other than pi stay below 0.81 *)
Lemma cos_fifth (m : Z) : Z.odd m = true -> 9 / 10 < Rabs (cos (PI * IZR m / 5)) -> exists k : Z, m = (5 + 10 * k)%Z.
Proof.
  intros Ho H. set (t := PI * IZR m / 5) in *. set (c := cos t) in *.
  assert (C5 : cos (5 * t) = -1).
  { apply Z.odd_spec in Ho. destruct Ho as [q Hq]. replace (5 * t) with (PI + 2 * PI * IZR q).
    - rewrite <- Rplus_0_r. assert (E := cis_period PI q). unfold cis in E. injection E as E1 _. rewrite E1, cos_PI. ring.
    - unfold t. rewrite Hq, plus_IZR, mult_IZR. field. }
  assert (P : cos (5 * t) = 16 * c ^ 5 - 20 * c ^ 3 + 5 * c).
  { replace (5 * t) with (2 * t + (2 * t + t)) by ring. rewrite !cos_plus, !sin_plus, !cos_2a, !sin_2a. unfold c.
    assert (S := sin2_cos2 t). unfold Rsqr in S. set (x := cos t) in *. set (y := sin t) in *.
    assert (Y : y * y = 1 - x * x) by lra.
    replace ((x * x - y * y) * ((x * x - y * y) * x - 2 * y * x * y) - 2 * y * x * (2 * y * x * x + (x * x - y * y) * y))
      with ((x * x - y * y) * ((x * x - y * y) * x - 2 * (y * y) * x) - (2 * x * (2 * (y * y) * x * x + (x * x - y * y) * (y * y)))) by ring.
    rewrite Y. ring. }
  assert (R : (c + 1) * (4 * c ^ 2 - 2 * c - 1) ^ 2 = 0) by (rewrite C5 in P; replace ((c + 1) * (4 * c ^ 2 - 2 * c - 1) ^ 2) with (16 * c ^ 5 - 20 * c ^ 3 + 5 * c + 1) by ring; lra).
  assert (Cm : c = -1).
  { apply Rmult_integral in R. destruct R as [R|R]; [lra|]. assert (R' : 4 * c ^ 2 - 2 * c - 1 = 0) by (rewrite <- Rsqr_pow2 in R; apply Rsqr_0_uniq in R; exact R).
    exfalso. unfold Rabs in H. destruct (Rcase_abs c); nra. }
  assert (S0 : sin t = 0). { assert (S := sin2_cos2 t). unfold Rsqr in S. fold c in S. rewrite Cm in S. nra. }
  assert (K : cis (t - PI) = RtoC 1).
  { unfold cis. rewrite cos_minus, sin_minus, cos_PI, sin_PI, S0. fold c. rewrite Cm. unfold RtoC. f_equal; ring. }
  apply cis_eq_1 in K. destruct K as [k Hk]. exists k. apply eq_IZR. rewrite plus_IZR, mult_IZR.
  assert (PP := PI_RGT_0). unfold t in Hk. assert (PI * (IZR m / 5 - 1) = PI * (2 * IZR k)) by lra. apply Rmult_eq_reg_l in H0; lra.
Qed.

Definition ripple_im : arr num := mk2 3 5 (fun y x => Fin (ripple y x)).
Definition ripple_shifted : arr num := mk2 3 5 (fun y x => Fin (Re (cshift 3 5 ripple 0 (1 / 4) y x))).

Lemma ripple_fshift : is_fshift 3 5 ripple (fun y x => Re (cshift 3 5 ripple 0 (1 / 4) y x)) 0 (1 / 4).
Proof.
  intros y x Hy Hx. assert (I := shifted_real_odd [3; 5]%Z (img2 ripple) [0; 1 / 4] [y; x] (pos2 3 5 ltac:(lia) ltac:(lia)) ltac:(repeat constructor) eq_refl (inb2_intro 3 5 y x Hy Hx)).
  rewrite cshift_shifted in I by lia. destruct (cshift 3 5 ripple 0 (1 / 4) y x) as [a b]. unfold Im in I. cbn in I. subst. reflexivity.
Qed.

(** "Images will be registered to within 1/usfac of a pixel": a shift of a quarter pixel, exactly on the usfac=4 grid, is missed
    by at least half a pixel, because the coarse search settles on another peak of |correlation| *)
Theorem C85_within_a_grid_step_refuted :
  exists im1 im2 : arr num, shape im1 = [3; 5]%Z /\ shape im2 = [3; 5]%Z /\
    is_fshift 3 5 (prep false im1 3 5) (prep false im2 3 5) 0 (1 / 4) /\ no_phase_symmetry 3 5 (prep false im1 3 5) /\
    forall has_fftw nthreads use_np, exists x y,
      register_images has_fftw im1 im2 4 false false false None nthreads use_np = Ok (nums [x; y]) /\
      forall k : Z, 1 / 2 <= Rabs (x - 1 / 4 - IZR k * 5).
Proof.
  exists ripple_im, ripple_shifted. split; [reflexivity|]. split; [reflexivity|].
  change (prep false ripple_im 3 5) with ripple. change (prep false ripple_shifted 3 5) with (fun y x => Re (cshift 3 5 ripple 0 (1 / 4) y x)).
  split; [exact ripple_fshift|]. split.
  { apply no_phase_symmetry_criterion; try lia; rewrite ripple_dft by (apply inb2_intro; lia); unfold ripple_spec, at2; cbn [Z.eqb Pos.eqb andb ind];
      rewrite <- ?RtoC_plus, <- ?RtoC_mult, <- ?RtoC_plus; intros E; injection E as E; lra. }
  intros hf nt np.
  destruct (C53_upsampled_maximum hf ripple_im ripple_shifted 4 false false None nt np 3 5 eq_refl eq_refl ltac:(lia) ltac:(lia) I ltac:(lra)) as [a [b [A [B [E [_ [Rb [M [_ [_ [_ [_ [WB _]]]]]]]]]]]]].
  exists (IZR B / 4), (IZR A / 4). split; [exact E|].
  change (prep false ripple_im 3 5) with ripple in M. change (prep false ripple_shifted 3 5) with (fun y x => Re (cshift 3 5 ripple 0 (1 / 4) y x)) in M.
  specialize (M 0%Z 3%Z I I).
  assert (L := ripple_bounds _ _ _ (IZR 0 / 2) (IZR 3 / 2) ripple_fshift). assert (G := ripple_bounds _ _ _ (IZR a / 2) (IZR b / 2) ripple_fshift).
  assert (X1 : cos (2 * PI * (2 * (1 / 4 - IZR 3 / 2) / 5)) = -1).
  { replace (2 * PI * (2 * (1 / 4 - IZR 3 / 2) / 5)) with (- PI) by field. rewrite cos_neg. apply cos_PI. }
  rewrite X1 in L. replace (Rabs (-1)) with 1 in L by (rewrite Rabs_left; lra).
  assert (X2 : 2 * PI * (2 * (1 / 4 - IZR b / 2) / 5) = PI * IZR (1 - 2 * b) / 5) by (rewrite minus_IZR, mult_IZR; field).
  rewrite X2 in G. destruct (cos_fifth (1 - 2 * b)) as [k Hk].
  { rewrite Z.odd_sub, Z.odd_mul. reflexivity. }
  { lra. }
  assert (Bc : (b = -2 \/ b = 3)%Z) by lia.
  unfold fine_window in WB. replace (4 * (3 / 2)) with (IZR 6) in WB by (cbn; lra). rewrite ceilR_IZR in WB.
  replace (IZR b / 2 * 4) with (IZR (2 * b)) in WB by (rewrite mult_IZR; field). 
  assert (RR : roundR (IZR (2 * b)) = (2 * b)%Z) by (apply roundR_near; rewrite Rminus_eq_0, Rabs_R0; lra).
  rewrite RR in WB. change ((6 - 1) / 2)%Z with 2%Z in WB. change (6 / 2)%Z with 3%Z in WB.
  intros j. replace (IZR B / 4 - 1 / 4 - IZR j * 5) with (IZR (B - 1 - 20 * j) / 4) by (rewrite !minus_IZR, mult_IZR; field).
  unfold Rdiv at 2. rewrite Rabs_mult, (Rabs_right (/ 4)), <- abs_IZR by lra.
  assert (2 <= Z.abs (B - 1 - 20 * j))%Z by lia. apply IZR_le in H. lra.
Qed.
Print Assumptions C85_within_a_grid_step_refuted.

(** a point source on 3x3 pixels moved by a quarter / half pixel meets the hypotheses *)
Definition moved (tx : R) : arr num := mk2 3 3 (fun y x => Fin (Re (cshift 3 3 (prep false (dot 3 3 1 1) 3 3) 0 tx y x))).
Lemma moved_fshift tx : is_fshift 3 3 (prep false (dot 3 3 1 1) 3 3) (prep false (moved tx) 3 3) 0 tx.
Proof.
  intros y x Hy Hx. change (prep false (moved tx) 3 3 y x) with (Re (cshift 3 3 (prep false (dot 3 3 1 1) 3 3) 0 tx y x)).
  assert (I := shifted_real_odd [3; 3]%Z (img2 (prep false (dot 3 3 1 1) 3 3)) [0; tx] [y; x] (pos2 3 3 ltac:(lia) ltac:(lia)) ltac:(repeat constructor) eq_refl (inb2_intro 3 3 y x Hy Hx)).
  rewrite cshift_shifted in I by lia. destruct (cshift 3 3 _ 0 tx y x) as [a b]. unfold Im in I. cbn in I. subst. reflexivity.
Qed.
Lemma dot_spectrum ny nx a b k : (0 <= a < ny)%Z -> (0 <= b < nx)%Z -> Cmod (dft [ny; nx] (fun y => RtoC (img2 (prep false (dot ny nx a b) ny nx) y)) k) = 1.
Proof.
  intros Ha Hb. unfold dft. rewrite (sumNC_single _ _ [a; b]).
  - cbn [img2]. rewrite dot_prep, !Z.eqb_refl. cbn [andb]. rewrite Cmult_1_l. apply Cmod_cis.
  - apply inb2_intro; auto.
  - intros i Hi Hne. apply inb2 in Hi. destruct Hi as [y [x [-> _]]]. cbn [img2]. rewrite dot_prep.
    destruct (Z.eqb_spec y a), (Z.eqb_spec x b); cbn [andb]; subst; [congruence| | |]; apply Cmult_0_l.
Qed.
Lemma D1_3 t : D1 3 t = RtoC ((1 + 2 * cos (2 * PI * (t / 3))) / 3).
Proof.
  unfold D1. change 3%Z with (0 + 1 + 1 + 1)%Z at 2. rewrite !sumC_S by lia. change (sumC 0 (fun k => cis (2 * PI * (fftfreq 3 k * t)))) with (RtoC 0).
  assert (F0 : fftfreq 3 0 = 0) by (unfold fftfreq; cbn; field). assert (F1 : fftfreq 3 (0 + 1) = 1 / 3) by reflexivity. assert (F2 : fftfreq 3 (0 + 1 + 1) = - (1 / 3)) by (unfold fftfreq; cbn; field).
  rewrite F0, F1, F2. rewrite Rmult_0_l, Rmult_0_r, cis_0, Cplus_0_l, <- Cplus_assoc, (cis_pair _ _ 0%Z) by ring.
  rewrite <- RtoC_plus, <- RtoC_mult. f_equal. replace (1 / 3 * t) with (t / 3) by field. field.
Qed.
Lemma moved_rcc tx sy sx : Cmod (rcc 3 3 (prep false (dot 3 3 1 1) 3 3) (prep false (moved tx) 3 3) sy sx) =
  Rabs ((1 + 2 * cos (2 * PI * (sy / 3))) / 3) * Rabs ((1 + 2 * cos (2 * PI * ((tx - sx) / 3))) / 3).
Proof.
  rewrite (frcc_spectrum 3 3 _ _ 0 tx) by (auto using moved_fshift; lia).
  rewrite (sumNC_ext _ _ (fun k => cis (2 * PI * fdot [3; 3]%Z k [0 - sy; tx - sx]))).
  2:{ intros k Hk. rewrite dot_spectrum by lia. rewrite pow1. ring. }
  change (Cmod (Dn [3; 3]%Z [0 - sy; tx - sx]) = Rabs ((1 + 2 * cos (2 * PI * (sy / 3))) / 3) * Rabs ((1 + 2 * cos (2 * PI * ((tx - sx) / 3))) / 3)).
  rewrite Dn_cons by (apply pos2; lia). rewrite Dn_1, !D1_3, Cmod_mult, !Cmod_R by lia.
  replace (2 * PI * ((0 - sy) / 3)) with (- (2 * PI * (sy / 3))) by field. rewrite cos_neg. reflexivity.
Qed.
Lemma cos_3 (b k : Z) t : cos (2 * PI * ((t - IZR (b + 6 * k) / 2) / 3)) = cos (2 * PI * ((IZR b / 2 - t) / 3)).
Proof.
  rewrite <- cos_neg. replace (- (2 * PI * ((t - IZR (b + 6 * k) / 2) / 3))) with (2 * PI * ((IZR b / 2 - t) / 3) + 2 * PI * IZR k) by (rewrite plus_IZR, mult_IZR; field).
  assert (E := cis_period (2 * PI * ((IZR b / 2 - t) / 3)) k). unfold cis in E. injection E as E1 _. exact E1.
Qed.
Lemma third_le c : -1 <= c <= 1 -> Rabs ((1 + 2 * c) / 3) <= 1 /\ (c <= 0 -> Rabs ((1 + 2 * c) / 3) <= 1 / 3).
Proof. intros H. split; [|intros]; apply Rabs_le; lra. Qed.

Example C85_nonvacuous :
  let im1 := dot 3 3 1 1 in let f := prep false im1 3 3 in
  no_phase_symmetry 3 3 f /\
  is_fshift 3 3 f (prep false (moved (1 / 2)) 3 3) 0 (1 / 2) /\
  is_fshift 3 3 f (prep false (moved (1 / 4)) 3 3) 0 (1 / 4) /\
  coarse_ok 3 3 f (prep false (moved (1 / 4)) 3 3) None (3 / 4 - 1 / 4) 0 (1 / 4) /\
  exists y x, register_images true im1 (moved (1 / 4)) 4 false false false None 2 true = Ok (nums [x; y]) /\
    whole_period 3 y /\ whole_period 3 (x - 1 / 4).
Proof.
  cbv zeta. assert (Hn := dot_no_phase_symmetry 3 3 1 1 ltac:(lia) ltac:(lia) ltac:(lia) ltac:(lia)).
  split; [exact Hn|]. split; [apply moved_fshift|]. split; [apply moved_fshift|].
  assert (Hc : coarse_ok 3 3 (prep false (dot 3 3 1 1) 3 3) (prep false (moved (1 / 4)) 3 3) None (3 / 4 - 1 / 4) 0 (1 / 4)).
  { intros a b N. exists 0%Z, 0%Z. split; [exact I|]. split; [exact I|]. rewrite !moved_rcc.
    assert (V : 2 / 3 <= Rabs ((1 + 2 * cos (2 * PI * (IZR 0 / 2 / 3))) / 3) * Rabs ((1 + 2 * cos (2 * PI * ((1 / 4 - IZR 0 / 2) / 3))) / 3)).
    { replace (2 * PI * (IZR 0 / 2 / 3)) with 0 by field. rewrite cos_0. replace ((1 + 2 * 1) / 3) with 1 by field. rewrite Rabs_R1, Rmult_1_l.
      replace (2 * PI * ((1 / 4 - IZR 0 / 2) / 3)) with (PI / 6) by field. rewrite cos_PI6.
      assert (S : 1 <= sqrt 3) by (rewrite <- sqrt_1; apply sqrt_le_1_alt; lra). rewrite Rabs_right; lra. }
    assert (Pp := PI_RGT_0).
    assert (W : Rabs ((1 + 2 * cos (2 * PI * (IZR a / 2 / 3))) / 3) * Rabs ((1 + 2 * cos (2 * PI * ((1 / 4 - IZR b / 2) / 3))) / 3) <= 1 / 3); [|lra].
    assert (Ba := third_le _ (COS_bound (2 * PI * (IZR a / 2 / 3)))). assert (Bb := third_le _ (COS_bound (2 * PI * ((1 / 4 - IZR b / 2) / 3)))).
    assert (Pa := Rabs_pos ((1 + 2 * cos (2 * PI * (IZR a / 2 / 3))) / 3)). assert (Pb := Rabs_pos ((1 + 2 * cos (2 * PI * ((1 / 4 - IZR b / 2) / 3))) / 3)).
    assert (Z6 : forall t m k, ((2 <= m <= 4)%Z \/ t = 1 / 4 /\ m = 5%Z) -> 0 <= t <= 1 / 4 -> cos (2 * PI * ((t - IZR (m + 6 * k) / 2) / 3)) <= 0).
    { intros t m k Hm Ht. rewrite cos_3. set (th := 2 * PI * ((IZR m / 2 - t) / 3)).
      assert (R : PI / 2 <= th <= 3 * (PI / 2)).
      { unfold th. destruct Hm as [Hm|[-> ->]]; [|lra]. assert (2 <= IZR m <= 4) by (split; apply IZR_le; lia).
        assert (E : 3 / 4 <= IZR m / 2 - t <= 9 / 4) by lra. split.
        - replace (PI / 2) with (2 * PI * (3 / 4 / 3)) by field. apply Rmult_le_compat_l; lra.
        - replace (3 * (PI / 2)) with (2 * PI * (9 / 4 / 3)) by field. apply Rmult_le_compat_l; lra. }
      apply cos_le_0; lra. }
    assert (Ea := Z.div_mod a 6 ltac:(lia)). assert (Ma := Z.mod_pos_bound a 6 ltac:(lia)). assert (Eb := Z.div_mod b 6 ltac:(lia)). assert (Mb := Z.mod_pos_bound b 6 ltac:(lia)).
    set (ka := (a / 6)%Z) in *. set (ra := (a mod 6)%Z) in *. set (kb := (b / 6)%Z) in *. set (rb := (b mod 6)%Z) in *.
    destruct (Z_le_dec 2 rb) as [Hb|Hb].
    - assert (Q : cos (2 * PI * ((1 / 4 - IZR b / 2) / 3)) <= 0).
      { replace b with (rb + 6 * kb)%Z by lia. apply Z6; [|lra]. destruct (Z.eq_dec rb 5); [right; auto|left; lia]. }
      destruct Ba as [Ba _]. destruct Bb as [_ Bb]. specialize (Bb Q). nra.
    - assert (Q : (2 <= ra <= 4)%Z).
      { destruct (Z_le_dec 2 ra), (Z_le_dec ra 4); try lia; exfalso; apply N; (split; [exists (if (ra =? 5)%Z then ka + 1 else ka)%Z|exists kb]).
        all: try (replace a with (ra + 6 * ka)%Z by lia). all: try (replace b with (rb + 6 * kb)%Z by lia).
        - assert (ra = 5)%Z as -> by lia. cbn [Z.eqb Pos.eqb]. apply Rabs_le. rewrite !plus_IZR, mult_IZR. lra.
        - assert (Hrb : (rb = 0 \/ rb = 1)%Z) by lia. apply Rabs_le. rewrite plus_IZR, mult_IZR. destruct Hrb as [-> | ->]; lra.
        - assert (Hra : (ra = 0 \/ ra = 1)%Z) by lia. apply Rabs_le. rewrite plus_IZR, mult_IZR. destruct Hra as [-> | ->]; cbn [Z.eqb Pos.eqb]; lra.
        - assert (Hrb : (rb = 0 \/ rb = 1)%Z) by lia. apply Rabs_le. rewrite plus_IZR, mult_IZR. destruct Hrb as [-> | ->]; lra. }
      assert (Q' : cos (2 * PI * (IZR a / 2 / 3)) <= 0).
      { replace a with (ra + 6 * ka)%Z by lia. replace (2 * PI * (IZR (ra + 6 * ka) / 2 / 3)) with (- (2 * PI * ((0 - IZR (ra + 6 * ka) / 2) / 3))) by field.
        rewrite cos_neg. apply Z6; [left; auto|lra]. }
      destruct Ba as [_ Ba]. specialize (Ba Q'). destruct Bb as [Bb _]. nra. }
  split; [exact Hc|].
  destruct (C85_grid_shifts_recovered true (dot 3 3 1 1) (moved (1 / 4)) 4 false false None 2 true 3 3 0 1 eq_refl eq_refl ltac:(lia) ltac:(lia) I ltac:(lia)) as [y [x [E [_ R]]]].
  - replace (IZR 0 / IZR 4) with 0 by field. apply moved_fshift.
  - replace (IZR 0 / IZR 4) with 0 by field. exact Hc.
  - destruct (R Hn) as [Ry Rx]. exists y, x. split; [exact E|]. split; [|exact Rx]. replace y with (y - IZR 0 / IZR 4) by (cbn; lra). exact Ry.
Qed.
