(** Properties C51-C54: register_images recovers rolls, maximises the correlation on its grid, honours maxoff *)
From Coq Require Import ZArith Lia List Reals Lra Bool.
From Coquelicot Require Import Complex.
From Verif Require Import Base NDim DFT Kernel Num Py M_fast_ffts M_shift M_upsample Arg M_chi2 M_xcorr M_register
  Spec L_shift L_scale L_upsample Sum2 Spec2 Spec3 Spec4 L_chi2 L_chi2shift L_fshift L_xcorr P_chi2errors P_xcorr P_xcorr2 P_xcorr3
  L_register L_register2 L_register3.
Import ListNotations.
Open Scope R_scope.

(** the two extra entries when return_error is set *)
Definition err_out (return_error : bool) (u : R) : list regval := if return_error then nums [1 / u; 1 / u] else [].
Lemma err_out_part re u : err_part re u = err_out re u.  Proof. destruct re; reflexivity. Qed.

(** *** autocorrelation: strictly smaller in modulus away from zero *)
Lemma ccf_anti_gap ny nx f s t : (0 < ny)%Z -> (0 < nx)%Z ->
  ccf ny nx f f 0 0 + ccf ny nx f f s t =
  sum2 ny nx (fun i j => (f ((i - s) mod ny)%Z ((j - t) mod nx)%Z + f i j) ^ 2) / 2.
Proof.
  intros Hy Hx. assert (G := ccf_auto_gap ny nx f s t Hy Hx).
  assert (E : sum2 ny nx (fun i j => (f ((i - s) mod ny)%Z ((j - t) mod nx)%Z + f i j) ^ 2) =
              sum2 ny nx (fun i j => (f ((i - s) mod ny)%Z ((j - t) mod nx)%Z - f i j) ^ 2) + 4 * ccf ny nx f f s t).
  { unfold ccf. change (pixel_sum ny nx) with (sum2 ny nx). rewrite <- sum2_scal, <- sum2_plus. apply sum2_ext. intros. ring. }
  rewrite E. lra.
Qed.
Lemma anti_strict ny nx f s t : (0 < ny)%Z -> (0 < nx)%Z -> no_antisymmetry ny nx f -> (s mod ny <> 0 \/ t mod nx <> 0)%Z ->
  - ccf ny nx f f s t < ccf ny nx f f 0 0.
Proof.
  intros Hy Hx Ha Hst. assert (G := ccf_anti_gap ny nx f s t Hy Hx).
  assert (N : 0 <= sum2 ny nx (fun i j => (f ((i - s) mod ny)%Z ((j - t) mod nx)%Z + f i j) ^ 2)) by (apply sum2_nonneg; intros; apply pow2_ge_0).
  destruct (Req_EM_T (sum2 ny nx (fun i j => (f ((i - s) mod ny)%Z ((j - t) mod nx)%Z + f i j) ^ 2)) 0) as [E|E]; [|lra].
  exfalso. assert (K : (s mod ny = 0 /\ t mod nx = 0)%Z); [|lia]. apply Ha. intros y x HY HX.
  assert (W := sum2_nonneg_0 ny nx (fun i j => (f ((i - s) mod ny)%Z ((j - t) mod nx)%Z + f i j) ^ 2) ltac:(intros; apply pow2_ge_0) E y x HY HX).
  cbv beta in W. simpl in W. rewrite Rmult_1_r in W. apply Rsqr_0_uniq in W. lra.
Qed.

(** the whole-pixel shift (sy, sx) maximises |cross-correlation|, strictly among inequivalent shifts *)
Definition best_abs_roll (ny nx : Z) (f1 f2 : Z -> Z -> R) (sy sx : Z) : Prop :=
  forall s t, ((s - sy) mod ny <> 0 \/ (t - sx) mod nx <> 0)%Z -> Rabs (ccf ny nx f1 f2 s t) < Rabs (ccf ny nx f1 f2 sy sx).

Lemma best_abs_of_roll ny nx f g dy dx : (0 < ny)%Z -> (0 < nx)%Z ->
  (forall y x, (0 <= y < ny)%Z -> (0 <= x < nx)%Z -> g y x = f ((y - dy) mod ny)%Z ((x - dx) mod nx)%Z) ->
  no_symmetry ny nx f -> no_antisymmetry ny nx f -> best_abs_roll ny nx f g dy dx.
Proof.
  intros Hy Hx Hr Hs Ha s t Hst. rewrite !(ccf_roll ny nx f g dy dx) by auto. rewrite !Z.sub_diag.
  assert (A := auto_strict ny nx f (s - dy) (t - dx) Hy Hx Hs Hst). assert (B := anti_strict ny nx f (s - dy) (t - dx) Hy Hx Ha Hst).
  rewrite (Rabs_right (ccf ny nx f f 0 0)) by lra. apply Rabs_def1; lra.
Qed.

Theorem C51_unique_peak_is_returned :
  forall has_fftw im1 im2 ret_err zeromean maxoff nthreads use_np ny nx sy sx,
  shape im1 = [ny; nx] -> shape im2 = [ny; nx] -> (0 < ny)%Z -> (0 < nx)%Z ->
  mo_ok maxoff -> within maxoff (centred ny sy) -> within maxoff (centred nx sx) ->
  best_abs_roll ny nx (prep zeromean im1 ny nx) (prep zeromean im2 ny nx) sy sx ->
  register_images has_fftw im1 im2 1 false ret_err zeromean maxoff nthreads use_np =
    Ok (nums [IZR (centred nx sx); IZR (centred ny sy)] ++ err_out ret_err 1).
Proof.
  intros hf im1 im2 re zm mo nt np ny nx sy sx H1 H2 Hy Hx HM Wy Wx HB.
  destruct (register_whole hf im1 im2 re zm mo nt np ny nx H1 H2 Hy Hx HM) as [ty [tx [E [Ry [Rx [_ [_ Mx]]]]]]].
  rewrite E, err_out_part. specialize (Mx _ _ Wy Wx).
  rewrite (ccf_mod ny nx _ _ (centred ny sy) (centred nx sx) sy sx) in Mx; auto.
  2,3: match goal with |- ((centred ?n ?d - _) mod _ = 0)%Z => assert (M := centred_mod n d ltac:(auto)); apply Z.mod_divide in M; [|lia]; apply Z.mod_divide; [lia|]; destruct M as [k M]; exists (- k)%Z; lia end.
  assert (D : ~ ((ty - sy) mod ny <> 0 \/ (tx - sx) mod nx <> 0)%Z) by (intros Q; specialize (HB ty tx Q); lra).
  assert (D1 : ((sy - ty) mod ny = 0)%Z).
  { assert (M : ((ty - sy) mod ny = 0)%Z) by lia. apply Z.mod_divide in M; [|lia]. apply Z.mod_divide; [lia|]. destruct M as [k M]. exists (- k)%Z. lia. }
  assert (D2 : ((sx - tx) mod nx = 0)%Z).
  { assert (M : ((tx - sx) mod nx = 0)%Z) by lia. apply Z.mod_divide in M; [|lia]. apply Z.mod_divide; [lia|]. destruct M as [k M]. exists (- k)%Z. lia. }
  rewrite (centred_unique ny sy ty Hy Ry D1), (centred_unique nx sx tx Hx Rx D2). reflexivity.
Qed.
Print Assumptions C51_unique_peak_is_returned.

Theorem C51_roll_recovered :
  forall has_fftw im1 im2 ret_err zeromean maxoff nthreads use_np ny nx dy dx,
  is_roll im1 im2 ny nx dy dx -> (0 < ny)%Z -> (0 < nx)%Z ->
  mo_ok maxoff -> within maxoff (centred ny dy) -> within maxoff (centred nx dx) ->
  no_symmetry ny nx (prep zeromean im1 ny nx) -> no_antisymmetry ny nx (prep zeromean im1 ny nx) ->
  register_images has_fftw im1 im2 1 false ret_err zeromean maxoff nthreads use_np =
    Ok (nums [IZR (centred nx dx); IZR (centred ny dy)] ++ err_out ret_err 1).
Proof.
  intros hf im1 im2 re zm mo nt np ny nx dy dx HR Hy Hx HM Wy Wx Hs Ha.
  apply C51_unique_peak_is_returned; auto; try apply HR.
  apply best_abs_of_roll; auto. intros y x HY HX. apply (prep_roll zm im1 im2); auto.
Qed.
Print Assumptions C51_roll_recovered.

(** without the sign condition the roll is not recovered: the modulus of the correlation of (1, -1) is the same at both shifts *)
Theorem C51_sign_ambiguity_refuted :
  exists im1 im2 : arr num, is_roll im1 im2 1 2 0 1 /\ no_symmetry 1 2 (prep false im1 1 2) /\ centred 2 1 = (-1)%Z /\
  forall has_fftw nthreads use_np,
    register_images has_fftw im1 im2 1 false false false None nthreads use_np = Ok (nums [0; 0]).
Proof.
  exists (mk2 1 2 (fun _ x => Fin (if (x =? 0)%Z then 1 else -1))), (mk2 1 2 (fun _ x => Fin (if (x =? 0)%Z then -1 else 1))).
  split; [split; [reflexivity|split; [reflexivity|]]|].
  { intros y x Hy Hx. assert (Ey : y = 0%Z) by lia. assert (Ex : (x = 0 \/ x = 1)%Z) by lia. subst y. destruct Ex as [->| ->]; reflexivity. }
  split.
  { intros s t H. specialize (H 0%Z 0%Z ltac:(lia) ltac:(lia)). split; [apply Z.mod_1_r|].
    unfold prep in H. cbn [get mk2] in H. assert (B := Z.mod_pos_bound (0 - t) 2 ltac:(lia)).
    destruct (Z.eqb_spec ((0 - t) mod 2) 0) as [E|E]; [|cbn in H; lra].
    apply Z.mod_divide in E; [|lia]. apply Z.mod_divide; [lia|]. destruct E as [k E]. exists (- k)%Z. lia. }
  split; [reflexivity|]. intros hf nt np.
  set (im1 := mk2 1 2 (fun _ x => Fin (if (x =? 0)%Z then 1 else -1))). set (im2 := mk2 1 2 (fun _ x => Fin (if (x =? 0)%Z then -1 else 1))).
  assert (E := register_eq hf im1 im2 1 false false false None nt np 1 2 eq_refl eq_refl ltac:(lia) ltac:(lia) ltac:(lra) ltac:(discriminate)).
  cbv zeta in E. unfold regtail in E. destruct (Req_EM_T 1 1) as [_|N]; [|lra].
  rewrite (argmax2_ext' 1 2 _ (fun _ _ => 2)) in E; try lia.
  2:{ intros i j Hi Hj. cbn [maskR]. unfold mag. rewrite <- !opp_IZR, rcc_int, Cmod_R by lia.
      assert (i = 0%Z) by lia. subst i. assert (Ej : (j = 0 \/ j = 1)%Z) by lia.
      destruct Ej as [->| ->]; unfold ccf, pixel_sum; cbv - [Rplus Rmult Ropp IZR Rabs]; unfold Rabs; destruct (Rcase_abs _); lra. }
  assert (S := argmin2_spec 1 2 (fun i j => - (fun _ _ => 2) i j) ltac:(lia) ltac:(lia)). change (argmin2 1 2 _) with (argmax2 1 2 (fun _ _ => 2)) in S.
  destruct (argmax2 1 2 _) as [r c]. destruct S as [Hr [Hc [_ S]]]. cbn [fst snd] in *.
  assert (c = 0%Z). { destruct (Z.eq_dec c 0); [auto|]. specialize (S 0%Z 0%Z ltac:(lia) ltac:(lia) ltac:(lia)). cbv beta in S. lra. }
  assert (r = 0%Z) by lia. subst r c. destruct E as [tl [E [T _]]]. rewrite E, (T eq_refl). cbn [err_part app nums map].
  rewrite !unwrap_val by lia. cbn. rewrite Ropp_0. reflexivity.
Qed.
Print Assumptions C51_sign_ambiguity_refuted.

Lemma dot_no_antisymmetry ny nx a b : (0 <= a < ny)%Z -> (0 <= b < nx)%Z -> no_antisymmetry ny nx (prep false (dot ny nx a b) ny nx).
Proof.
  intros Ha Hb s t H. exfalso. specialize (H a b Ha Hb). rewrite !dot_prep in H. rewrite !Z.eqb_refl in H. cbn [andb] in H.
  destruct (_ && _)%bool in H; lra.
Qed.
Example C51_nonvacuous : let im1 := dot 4 5 1 1 in let im2 := dot 4 5 3 4 in
  is_roll im1 im2 4 5 2 (-2) /\ no_symmetry 4 5 (prep false im1 4 5) /\ no_antisymmetry 4 5 (prep false im1 4 5) /\
  register_images false im1 im2 1 false true false None 1 true = Ok (nums [-2; -2; 1 / 1; 1 / 1]) /\
  register_images false im1 im2 1 false false false (Some 3%Z) 1 true = Ok (nums [-2; -2]).
Proof.
  cbv zeta. assert (HR : is_roll (dot 4 5 1 1) (dot 4 5 3 4) 4 5 2 (-2)).
  { split; [reflexivity|]. split; [reflexivity|]. intros y x Hy Hx. cbn [get dot mk2]. do 2 f_equal.
    assert (Ey : (y = 0 \/ y = 1 \/ y = 2 \/ y = 3)%Z) by lia. assert (Ex : (x = 0 \/ x = 1 \/ x = 2 \/ x = 3 \/ x = 4)%Z) by lia.
    destruct Ey as [->|[->|[->| ->]]], Ex as [->|[->|[->|[->| ->]]]]; reflexivity. }
  assert (Hs := dot_no_symmetry 4 5 1 1 ltac:(lia) ltac:(lia)). assert (Ha := dot_no_antisymmetry 4 5 1 1 ltac:(lia) ltac:(lia)).
  split; [exact HR|]. split; [exact Hs|]. split; [exact Ha|]. split.
  - rewrite (C51_roll_recovered false _ _ true false None 1 true 4 5 2 (-2) HR) by (auto; try lia; exact I). reflexivity.
  - rewrite (C51_roll_recovered false _ _ false false (Some 3%Z) 1 true 4 5 2 (-2) HR) by (auto; cbn; lia). reflexivity.
Qed.

(** *** C52 *)
Lemma phase_no_symmetry ny nx f : (0 < ny)%Z -> (0 < nx)%Z -> no_phase_symmetry ny nx f -> no_symmetry ny nx f /\ no_antisymmetry ny nx f.
Proof.
  intros Hy Hx Hp.
  assert (W : forall n s, (0 < n)%Z -> whole_period n (IZR s) -> (s mod n = 0)%Z).
  { intros n s Hn [->|[k E]]; [apply Z.mod_1_r|]. rewrite <- mult_IZR in E. apply eq_IZR in E. subst s. apply Z.mod_mul. lia. }
  split; intros s t H.
  - destruct (Hp (IZR s) (IZR t) (RtoC 1)) as [A B]; [rewrite Cmod_R; apply Rabs_R1| |split; auto].
    intros y x HY HX. rewrite cshift_int, H by auto. ring.
  - destruct (Hp (IZR s) (IZR t) (RtoC (-1))) as [A B]; [rewrite Cmod_R, Rabs_left; lra| |split; auto].
    intros y x HY HX. rewrite cshift_int, H by auto. rewrite <- RtoC_mult. f_equal. ring.
Qed.
Lemma centred_1 d : centred 1 d = 0%Z.  Proof. unfold centred. cbn. rewrite Z.mod_1_r. reflexivity. Qed.

(** on an axis with a single pixel nothing is reported; otherwise the half-pixel grid point equivalent to d is [centred n d] *)
Lemma half_centred n a d : (2 <= n)%Z -> (- n <= a < n)%Z -> whole_period n (IZR a / 2 - IZR d) -> (a = 2 * centred n d)%Z.
Proof.
  intros Hn Ha [E|[k E]]; [lia|].
  assert (F : (a = 2 * (d + k * n))%Z). { apply eq_IZR. rewrite mult_IZR, plus_IZR, mult_IZR. lra. }
  rewrite <- (centred_unique n d (d + k * n)); [lia|lia| |].
  - Z.to_euclidean_division_equations; lia.
  - replace (d - (d + k * n))%Z with (- k * n)%Z by lia. apply Z.mod_mul. lia.
Qed.
Lemma fine_centred n (k : Z) A c d : (2 <= n)%Z -> (2 < k)%Z -> Rabs (IZR A / IZR k - IZR c) <= 3 / 4 + 1 / IZR k ->
  whole_period n (IZR c - IZR d) -> whole_period n (IZR A / IZR k - IZR d) -> IZR A / IZR k = IZR c.
Proof.
  intros Hn Hk Hb [E|[p P]] [E'|[q Q]]; try lia.
  assert (K : 3 <= IZR k) by (apply IZR_le; lia). assert (1 / IZR k <= 1 / 3) by (unfold Rdiv; rewrite !Rmult_1_l; apply Rinv_le_contravar; lra).
  assert (D : IZR A / IZR k - IZR c = IZR ((q - p) * n)) by (rewrite mult_IZR, minus_IZR; lra).
  rewrite D in Hb. assert (Z0 : ((q - p) * n = 0)%Z).
  { destruct (Z.eq_dec (q - p) 0) as [->|N]; [lia|]. exfalso. rewrite <- abs_IZR in Hb.
    assert (2 <= IZR (Z.abs ((q - p) * n))); [apply IZR_le; nia|lra]. }
  rewrite Z0 in D. lra.
Qed.

Theorem C52_roll_recovered_every_factor :
  forall has_fftw im1 im2 usfac ret_err zeromean maxoff nthreads use_np ny nx dy dx,
  is_roll im1 im2 ny nx dy dx -> (0 < ny)%Z -> (0 < nx)%Z ->
  usfac <> 0 -> (usfac <= 2 \/ exists k : Z, usfac = IZR k) ->
  mo_ok maxoff -> within maxoff (2 * centred ny dy) -> within maxoff (2 * centred nx dx) ->
  no_phase_symmetry ny nx (prep zeromean im1 ny nx) ->
  register_images has_fftw im1 im2 usfac false ret_err zeromean maxoff nthreads use_np =
    Ok (nums [IZR (centred nx dx); IZR (centred ny dy)] ++ err_out ret_err usfac).
Proof.
  intros hf im1 im2 u re zm mo nt np ny nx dy dx HR Hy Hx U0 UK HM Wy Wx Hp.
  assert (HG : forall y x, (0 <= y < ny)%Z -> (0 <= x < nx)%Z -> prep zm im2 ny nx y x = prep zm im1 ny nx ((y - dy) mod ny)%Z ((x - dx) mod nx)%Z)
    by (intros y x HY HX; apply (prep_roll zm im1 im2); auto).
  assert (H1 : shape im1 = [ny; nx]) by apply HR. assert (H2 : shape im2 = [ny; nx]) by apply HR.
  destruct (Req_EM_T u 1) as [->|U1].
  { destruct (phase_no_symmetry _ _ _ Hy Hx Hp). apply (C51_roll_recovered hf im1 im2 re zm mo nt np ny nx dy dx); auto; destruct mo; cbn [within mo_ok] in *; auto; lia. }
  set (f := prep zm im1 ny nx) in *. set (g := prep zm im2 ny nx) in *.
  (* the coarse estimate *)
  assert (CO : forall a b : Z,
    (forall s t, within mo s -> within mo t -> Cmod (rcc ny nx f g (IZR s / 2) (IZR t / 2)) <= Cmod (rcc ny nx f g (IZR a / 2) (IZR b / 2))) ->
    whole_period ny (IZR a / 2 - IZR dy) /\ whole_period nx (IZR b / 2 - IZR dx)).
  { intros a b Mx. specialize (Mx _ _ Wy Wx). rewrite !mult_IZR in Mx.
    assert (X : forall z, 2 * z / 2 = z) by (intros; field). rewrite !X in Mx.
    rewrite (rcc_period ny nx f g (IZR (centred ny dy)) (IZR (centred nx dx)) (IZR dy) (IZR dx)) in Mx; auto.
    2,3: match goal with |- whole_period ?n (IZR (centred _ ?d) - _) => assert (M := centred_mod n d ltac:(auto)); apply Z.mod_divide in M; [|lia]; destruct M as [k M]; right; exists (- k)%Z; rewrite <- minus_IZR, <- mult_IZR; f_equal; lia end.
    assert (D : ~ ~ (whole_period ny (IZR a / 2 - IZR dy) /\ whole_period nx (IZR b / 2 - IZR dx))).
    { intros Q. assert (S := rcc_strict ny nx f g dy dx Hy Hx HG (IZR a / 2) (IZR b / 2) Hp Q). lra. }
    apply Classical_Prop.NNPP. exact D. }
  assert (R2 : forall n (h : Z -> R), (n = 1)%Z \/ (2 <= n)%Z -> forall d, ((2 <= n)%Z -> (if (n =? 1)%Z then 0 else h n) = IZR (centred n d)) -> (if (n =? 1)%Z then 0 else h n) = IZR (centred n d)).
  { intros n h [->|Hn] d Q; [rewrite centred_1; reflexivity|auto]. }
  destruct (Rle_dec u 2) as [U2|U2].
  - destruct (register_half hf im1 im2 u re zm mo nt np ny nx H1 H2 Hy Hx HM U0 U1 U2) as [a [b [E [Ra [Rb [_ [_ Mx]]]]]]].
    destruct (CO a b Mx) as [Pa Pb]. rewrite E, err_out_part. do 2 f_equal. unfold nums. cbn [map]. f_equal; [|f_equal]; f_equal.
    + apply (R2 nx (fun _ => IZR b / 2)); [lia|]. intros Hn. destruct (Z.eqb_spec nx 1); [lia|]. rewrite (half_centred nx b dx Hn Rb Pb), mult_IZR. field.
    + apply (R2 ny (fun _ => IZR a / 2)); [lia|]. intros Hn. destruct (Z.eqb_spec ny 1); [lia|]. rewrite (half_centred ny a dy Hn Ra Pa), mult_IZR. field.
  - destruct UK as [UK|[k Ek]]; [lra|].
    destruct (register_fine hf im1 im2 u re zm mo nt np ny nx H1 H2 Hy Hx HM ltac:(lra)) as [a [b [A [B [E [Ra [Rb [_ [_ [Mx [WA [WB Fx]]]]]]]]]]]].
    destruct (CO a b Mx) as [Pa Pb]. rewrite E, err_out_part. do 2 f_equal.
    assert (Hk : (2 < k)%Z) by (apply lt_IZR; lra). subst u.
    assert (Kn : IZR k <> 0) by lra.
    (* some fine grid point is equivalent to the roll *)
    assert (PT : forall n (e d : Z), (0 < n)%Z -> (- n <= e < n)%Z -> whole_period n (IZR e / 2 - IZR d) ->
       exists s, fine_window (IZR k) (IZR e / 2) s /\ whole_period n (IZR s / IZR k - IZR d)).
    { intros n e d Hn He P. destruct (Z_lt_le_dec n 2) as [L|L].
      - exists (roundR (IZR e / 2 * IZR k)). split; [apply window_centre; lra|left; lia].
      - assert (Q := half_centred n e d L He P). exists (centred n d * k)%Z.
        assert (X : IZR e / 2 = IZR (centred n d)) by (rewrite Q, mult_IZR; field). rewrite X in P |- *. split.
        + assert (Y : roundR (IZR (centred n d) * IZR k) = (centred n d * k)%Z) by (rewrite <- mult_IZR; apply roundR_near; rewrite Rminus_diag_eq, Rabs_R0 by reflexivity; lra).
          assert (WC := window_centre (IZR k) (IZR (centred n d)) ltac:(lra)). rewrite Y in WC. exact WC.
        + rewrite mult_IZR. replace (IZR (centred n d) * IZR k / IZR k) with (IZR (centred n d)) by (field; auto). exact P. }
    destruct (PT ny a dy Hy Ra Pa) as [s [Ws Ps]]. destruct (PT nx b dx Hx Rb Pb) as [t [Wt Pt]].
    assert (Fx' : Cmod (rcc ny nx f g (IZR s / IZR k) (IZR t / IZR k)) <= Cmod (rcc ny nx f g (IZR A / IZR k) (IZR B / IZR k))) by exact (Fx s t Ws Wt).
    rewrite (rcc_period ny nx f g (IZR s / IZR k) (IZR t / IZR k) (IZR dy) (IZR dx)) in Fx' by auto.
    assert (D : whole_period ny (IZR A / IZR k - IZR dy) /\ whole_period nx (IZR B / IZR k - IZR dx)).
    { apply Classical_Prop.NNPP. intros Q. assert (S := rcc_strict ny nx f g dy dx Hy Hx HG (IZR A / IZR k) (IZR B / IZR k) Hp Q). lra. }
    destruct D as [DA DB].
    assert (FC : forall n e d A, (2 <= n)%Z -> (- n <= e < n)%Z -> whole_period n (IZR e / 2 - IZR d) -> fine_window (IZR k) (IZR e / 2) A ->
       whole_period n (IZR A / IZR k - IZR d) -> IZR A / IZR k = IZR (centred n d)).
    { intros n e d A' L He P W P'. assert (Q := half_centred n e d L He P). assert (X : IZR e / 2 = IZR (centred n d)) by (rewrite Q, mult_IZR; field).
      rewrite X in P, W. apply (fine_centred n k A' (centred n d) d L Hk); auto. apply window_near; [lra|exact W]. }
    unfold nums. cbn [map]. f_equal; [|f_equal]; f_equal.
    + apply (R2 nx (fun _ => IZR B / IZR k)); [lia|]. intros Hn. destruct (Z.eqb_spec nx 1); [lia|]. apply (FC nx b dx B); auto.
    + apply (R2 ny (fun _ => IZR A / IZR k)); [lia|]. intros Hn. destruct (Z.eqb_spec ny 1); [lia|]. apply (FC ny a dy A); auto.
Qed.
Print Assumptions C52_roll_recovered_every_factor.
