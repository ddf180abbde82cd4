(** Property C106: does a larger upsample_factor fit better? *)
From Coq Require Import ZArith Lia List Reals Lra Bool.
From Coquelicot Require Import Complex.
From Verif Require Import Base NDim DFT Kernel Py M_fast_ffts M_shift M_scale M_zoom M_downsample M_convolve M_correlate Arg M_chi2
  Spec L_shift L_scale L_zoom L_convolve Sum2 Spec2 L_correlate L_chi2 P_chi2map L_chi2shift L_fshift P_chi2shift P_chi2errors P_chi2shift2.
Import ListNotations.
Open Scope R_scope.

(** [finds e im1 im2 err k ... map0 x y]: chi2_shift with upsample_factor=k (an int) returns (x, y) first, and map0 is the chi2 map *)
Definition finds (e : env) (im1 im2 : arr num) (err : errarg) (k : Z) (nthreads : Z) (use_np zeromean : bool) (nfitted : R)
    (ret_err ret_arr : bool) (mas : Z) (mns : R) (allow_huge : bool) (map0 : arr R) (x y : R) : Prop :=
  (exists t1 t2 t3, chi2n_map e im1 im2 err BWrap nthreads zeromean use_np true false allow_huge = Ok (Chi2All map0 t1 t2 t3)) /\
  (exists rest, chi2_shift e im1 im2 err (UInt k) BWrap nthreads use_np zeromean nfitted false ret_err ret_arr mas mns allow_huge =
     Ok (RNum x :: RNum y :: rest)).

Lemma grid_nested n m0 k q a : (0 < k)%Z -> (0 < q)%Z -> Z.odd q = true ->
  grid_shift n m0 (2 * (q * k)) (IZR (q * k)) (q * a + (q - 1) / 2) = grid_shift n m0 (2 * k) (IZR k) a.
Proof.
  intros Hk Hq Ho. apply Z.odd_spec in Ho. destruct Ho as [r ->]. replace ((2 * r + 1 - 1) / 2)%Z with r by (Z.to_euclidean_division_equations; lia).
  unfold grid_shift. f_equal. f_equal. rewrite !mult_IZR, !plus_IZR, !mult_IZR, !plus_IZR, mult_IZR.
  assert (0 < IZR k) by (apply IZR_lt; lia). assert (0 <= IZR r) by (apply IZR_le; lia). field. split; nra.
Qed.

(** *** an odd multiple of a factor that is at least the image height never fits worse *)
Theorem C106_odd_multiple_never_worse :
  forall e im1 im2 err k q nthreads use_np zeromean nfitted ret_err ret_arr mas mns allow_huge ny nx t,
  shape im1 = [ny; nx] -> shape im2 = [ny; nx] -> (0 < ny)%Z -> (0 < nx)%Z -> err_ok err ny nx -> size_ok e allow_huge ny nx ->
  one_sigma e t -> (ny <= k)%Z -> (0 < q)%Z -> Z.odd q = true ->
  exists map0 x y x' y',
    finds e im1 im2 err k nthreads use_np zeromean nfitted ret_err ret_arr mas mns allow_huge map0 x y /\
    finds e im1 im2 err (q * k) nthreads use_np zeromean nfitted ret_err ret_arr mas mns allow_huge map0 x' y' /\
    chi2_at ny nx map0 y' x' <= chi2_at ny nx map0 y x.
Proof.
  intros e im1 im2 err k q nt np zm nf re rc mas mns huge ny nx t H1 H2 Hy Hx He Hh Ht Hk Hq Ho.
  assert (Hqk : (ny <= q * k)%Z) by nia.
  assert (G : explicit_grid (UInt k) ny nx (IZR k) (2 * k) (2 * k)).
  { cbn [explicit_grid]. destruct (Z.ltb_spec k ny); [lia|]. repeat split; auto; lia. }
  assert (G' : explicit_grid (UInt (q * k)) ny nx (IZR (q * k)) (2 * (q * k)) (2 * (q * k))).
  { cbn [explicit_grid]. destruct (Z.ltb_spec (q * k) ny); [lia|]. repeat split; auto; lia. }
  destruct (C39_minimum_on_grid e im1 im2 err (UInt k) nt np zm nf re rc mas mns huge ny nx _ _ _ t H1 H2 Hy Hx He Hh G Ht)
    as [c [t1 [t2 [t3 [ym [xm [x [y [rest [i [j [Em [Sa [Ec [Hi [Hj [Edy [Edx Hmin]]]]]]]]]]]]]]]]]].
  destruct (C39_minimum_on_grid e im1 im2 err (UInt (q * k)) nt np zm nf re rc mas mns huge ny nx _ _ _ t H1 H2 Hy Hx He Hh G' Ht)
    as [c' [t1' [t2' [t3' [ym' [xm' [x' [y' [rest' [i' [j' [Em' [Sa' [Ec' [Hi' [Hj' [Edy' [Edx' Hmin']]]]]]]]]]]]]]]]]].
  assert (Q := Em). rewrite Em' in Q. injection Q as -> _ _ _. clear Em'.
  assert (Q := is_argmin2_unique ny nx (g2 c) _ _ Sa Sa'). injection Q as <- <-.
  exists c, x, y, x', y'. split; [split; [exists t1, t2, t3; exact Em|exists rest; exact Ec]|].
  split; [split; [exists t1, t2, t3; exact Em|exists rest'; exact Ec']|].
  assert (B : forall a, (0 <= a < 2 * k)%Z -> (0 <= q * a + (q - 1) / 2 < 2 * (q * k))%Z).
  { intros a Ha. apply Z.odd_spec in Ho. destruct Ho as [r ->]. replace ((2 * r + 1 - 1) / 2)%Z with r by (Z.to_euclidean_division_equations; lia). nia. }
  assert (L := Hmin' _ _ (B i Hi) (B j Hj)). rewrite !grid_nested in L by (auto; lia). rewrite <- Edy, <- Edx in L. exact L.
Qed.
Print Assumptions C106_odd_multiple_never_worse.

Lemma even_window_misses n m0 k a : (0 < k)%Z -> Z.odd n = true -> forall l : Z, grid_shift n m0 (2 * k) (IZR k) a <> IZR l.
Proof.
  intros Hk Ho l E. unfold grid_shift in E. rewrite <- Z.negb_odd, Ho in E. cbn [negb] in E. assert (0 < IZR k) by (apply IZR_lt; auto).
  set (w := (IZR a - (IZR (2 * k) - 1) / 2) / IZR k) in E.
  assert (W : w * IZR k = IZR a - (IZR (2 * k) - 1) / 2) by (unfold w; field; lra).
  assert (W2 : w = IZR ((n - 1) / 2 - m0 - l)) by (rewrite !minus_IZR; lra). rewrite W2 in W. rewrite mult_IZR in W.
  assert (Q : IZR (2 * (((n - 1) / 2 - m0 - l) * k)) = IZR (2 * a - 2 * k + 1)).
  { set (P := (((n - 1) / 2 - m0 - l) * k)%Z). rewrite <- mult_IZR in W. fold P in W. rewrite (mult_IZR 2 P), plus_IZR, minus_IZR, (mult_IZR 2 a), (mult_IZR 2 k). lra. }
  apply eq_IZR in Q. lia.
Qed.

(** *** but from a factor below the image height to one at or above it, it does: identical images of odd size *)
Theorem C106_identical_images_worse_above_size :
  forall e im err s k nthreads use_np zeromean nfitted ret_err ret_arr mas mns allow_huge ny nx t,
  shape im = [ny; nx] -> (1 < ny)%Z -> (0 < nx)%Z -> Z.odd ny = true -> Z.odd nx = true -> size_ok e allow_huge ny nx ->
  (err = ErrNone /\ s = 1 \/ err = ErrScalar s /\ s <> 0) -> one_sigma e t ->
  no_real_symmetry ny nx (prep zeromean im ny nx) -> (ny <= k)%Z ->
  exists map0 x y x' y',
    finds e im im err 1 nthreads use_np zeromean nfitted ret_err ret_arr mas mns allow_huge map0 x y /\
    finds e im im err k nthreads use_np zeromean nfitted ret_err ret_arr mas mns allow_huge map0 x' y' /\
    x = 0 /\ y = 0 /\ chi2_at ny nx map0 y x = 0 /\ x' <> 0 /\ y' <> 0 /\ 0 < chi2_at ny nx map0 y' x'.
Proof.
  intros e im err s k nt np zm nf re rc mas mns huge ny nx t H1 Hy Hx Oy Ox Hh Hs Ht Hsym Hk.
  assert (Hy0 : (0 < ny)%Z) by lia.
  assert (He : err_ok err ny nx) by (destruct Hs as [[-> ->]|[-> H]]; simpl; auto).
  assert (Hsn : s <> 0) by (destruct Hs as [[_ ->]|[_ ?]]; [lra|auto]).
  assert (G : explicit_grid (UInt 1) ny nx (IZR 1) ny nx).
  { cbn [explicit_grid]. destruct (Z.ltb_spec 1 ny); [|lia]. repeat split; auto; lia. }
  assert (G' : explicit_grid (UInt k) ny nx (IZR k) (2 * k) (2 * k)).
  { cbn [explicit_grid]. destruct (Z.ltb_spec k ny); [lia|]. repeat split; auto; lia. }
  assert (Hr : is_roll im im ny nx 0 0).
  { split; [auto|]. split; [auto|]. intros i j Hi Hj. rewrite !Z.sub_0_r, !Z.mod_small by auto. reflexivity. }
  assert (HPy : hits_pixel ny 1 ny) by (unfold hits_pixel; rewrite Oy; auto).
  assert (HPx : hits_pixel nx 1 nx) by (unfold hits_pixel; rewrite Ox; auto).
  destruct (C38_roll_reproduced e im im err s 1 nt np zm nf re rc mas mns huge ny nx 0 0 ny nx t Hr Hy0 Hx Hh Hs G HPy HPx Ht)
    as [x [y [rest [Ec [_ U]]]]].
  destruct (U Hsym) as [Ey Ex]. clear U.
  assert (Z0 : forall n, (0 < n)%Z -> ((n - 1) / 2 - ((n - 1) / 2 - 0) mod n = 0)%Z).
  { intros n Hn. rewrite Z.sub_0_r, Z.mod_small by (Z.to_euclidean_division_equations; lia). lia. }
  rewrite (Z0 ny Hy0) in Ey. rewrite (Z0 nx Hx) in Ex.
  destruct (C39_minimum_on_grid e im im err (UInt k) nt np zm nf re rc mas mns huge ny nx _ _ _ t H1 H1 Hy0 Hx He Hh G' Ht)
    as [c [t1 [t2 [t3 [ym [xm [x' [y' [rest' [i [j [Em [Sa [Ec' [Hi [Hj [Edy [Edx Hmin]]]]]]]]]]]]]]]]]].
  destruct (map_interp e im im err s nt zm np huge ny nx c t1 t2 t3 H1 H1 Hy0 Hx Hh Hs Em) as [Sc [Vc Ic]].
  exists c, x, y, x', y'. split; [split; [exists t1, t2, t3; exact Em|exists rest; exact Ec]|].
  split; [split; [exists t1, t2, t3; exact Em|exists rest'; exact Ec']|].
  split; [exact Ex|]. split; [exact Ey|].
  assert (Ny : forall l : Z, y' <> IZR l) by (intros l; rewrite Edy; apply even_window_misses; auto; lia).
  assert (Nx : forall l : Z, x' <> IZR l) by (intros l; rewrite Edx; apply even_window_misses; auto; lia).
  split; [|split; [exact (Nx 0%Z)|split; [exact (Ny 0%Z)|]]].
  - rewrite (proj2 (Ic y x) Oy Ox), Ey, Ex. apply sum2_const0. intros a b Ha Hb.
    rewrite (fshift_int ny nx _ 0 0 a b Hy0 Hx), !Z.sub_0_r, !Z.mod_small by auto. unfold Rdiv. ring.
  - rewrite (proj2 (Ic y' x') Oy Ox).
    assert (P : 0 <= chi2c ny nx (prep zm im ny nx) (prep zm im ny nx) s y' x') by (apply sum2_nonneg; intros; apply pow2_ge_0).
    destruct P as [P|P]; [exact P|]. exfalso.
    destruct (Hsym y' x') as [a [b [A _]]].
    { intros a b Ha Hb.
      assert (W := sum2_nonneg_0 ny nx (fun i j => ((prep zm im ny nx i j - fshift ny nx (prep zm im ny nx) y' x' i j) / s) ^ 2)
         ltac:(intros; apply pow2_ge_0) (eq_sym P) a b Ha Hb). cbv beta in W. simpl in W. rewrite Rmult_1_r in W. apply Rsqr_0_uniq in W.
      set (D := prep zm im ny nx a b - fshift ny nx (prep zm im ny nx) y' x' a b) in *.
      assert (D = D / s * s) by (field; auto). rewrite W in H. unfold D in H. lra. }
    apply (Ny (a * ny)%Z). rewrite mult_IZR. exact A.
Qed.
Print Assumptions C106_identical_images_worse_above_size.

(** *** nor for an even multiple: a 3 x 1 image and its copy moved by half a pixel *)
Definition half_a : arr num := mk2 3 1 (fun y _ => Fin (if (y =? 0)%Z then 1 else 0)).
Definition half_b : arr num := mk2 3 1 (fun y _ => Fin (if (y =? 2)%Z then - / 3 else 2 / 3)).

Lemma dir3 t : Re (dirichlet 3 t) = (1 + 2 * cos (2 * PI * t / 3)) / 3.
Proof.
  unfold dirichlet. change (3 / 2)%Z with 1%Z.
  change (sumC 3) with (sumC (2 + 1)). rewrite sumC_S by lia. change (sumC 2) with (sumC (1 + 1)). rewrite sumC_S by lia.
  change (sumC 1) with (sumC (0 + 1)). rewrite sumC_S by lia. change (sumC 0) with (sumG (RtoC 0) Cplus 0).
  rewrite sumG_0 by lia. unfold cis. cbn [Cmult Cplus RtoC Re Im fst snd].
  replace (2 * PI * (IZR (0 - 1) * t / 3)) with (- (2 * PI * t / 3)) by (simpl; field).
  replace (2 * PI * (IZR (1 - 1) * t / 3)) with 0 by (simpl; field).
  replace (2 * PI * (IZR (2 - 1) * t / 3)) with (2 * PI * t / 3) by (simpl; field).
  rewrite cos_neg, cos_0. field.
Qed.
Lemma dir1 t : dirichlet 1 t = RtoC 1.
Proof.
  unfold dirichlet. change (1 / 2)%Z with 0%Z. change (sumC 1) with (sumC (0 + 1)). rewrite sumC_S by lia. change (sumC 0) with (sumG (RtoC 0) Cplus 0).
  rewrite sumG_0 by lia. replace (2 * PI * (IZR (0 - 0) * t / 1)) with 0 by (simpl; field). unfold cis. rewrite cos_0, sin_0.
  apply injective_projections; cbn [Cmult Cplus RtoC fst snd]; field.
Qed.

Lemma fshift31 f y x i : fshift 3 1 f y x i 0 =
  f 0%Z 0%Z * ((1 + 2 * cos (2 * PI * (IZR i - y) / 3)) / 3) + f 1%Z 0%Z * ((1 + 2 * cos (2 * PI * (IZR i - y - 1) / 3)) / 3) +
  f 2%Z 0%Z * ((1 + 2 * cos (2 * PI * (IZR i - y - 2) / 3)) / 3).
Proof.
  unfold fshift, trig_interpR.
  assert (D : forall k, Re (dirichletN [3; 1]%Z [IZR i - y; IZR 0 - x] [k; 0%Z]) = (1 + 2 * cos (2 * PI * (IZR i - y - IZR k) / 3)) / 3).
  { intros k. cbn [dirichletN]. rewrite dir1. rewrite <- dir3. destruct (dirichlet 3 (IZR i - y - IZR k)) as [a b]. cbn [Cmult RtoC Re fst snd]. ring. }
  rewrite sum2_sumNR. unfold sum2. 
  assert (S3 : forall g, sumR 3 g = g 0%Z + g 1%Z + g 2%Z).
  { intros g. change 3%Z with (2 + 1)%Z. rewrite sumR_S by lia. change 2%Z with (1 + 1)%Z at 1. rewrite sumR_S by lia.
    change 1%Z with (0 + 1)%Z at 1. rewrite sumR_S by lia. rewrite sumR_0 by lia. change (0 + 1)%Z with 1%Z. change (1 + 1)%Z with 2%Z. ring. }
  assert (S1 : forall g, sumR 1 g = g 0%Z). { intros g. change 1%Z with (0 + 1)%Z. rewrite sumR_S, sumR_0 by lia. ring. }
  rewrite S3, !S1, !D. cbn [img2]. rewrite Rminus_0_r. ring.
Qed.

Lemma cos_half_odd (r : Z) : cos (PI * IZR (2 * r + 1) / 18) <> 1 / 2.
Proof.
  intros E. rewrite <- cos_PI3 in E.
  assert (F : cos (PI * IZR (2 * r + 1) / 18) - cos (PI / 3) = 0) by (rewrite E; ring).
  rewrite form2 in F.
  assert (N : forall s : Z, Z.odd s = true -> sin (PI * IZR s / 36) <> 0).
  { intros s Hs Z0. apply sin_eq_0_0 in Z0. destruct Z0 as [q Hq]. assert (PI > 0) by apply PI_RGT_0.
    assert (Q : IZR s = IZR (36 * q)).
    { rewrite mult_IZR. apply (Rmult_eq_reg_l (PI / 36)); [|lra]. replace (PI / 36 * IZR s) with (PI * IZR s / 36) by field. rewrite Hq. field. }
    apply eq_IZR in Q. subst s. rewrite Z.odd_mul in Hs. discriminate. }
  apply Rmult_integral in F. destruct F as [F|F]; [apply Rmult_integral in F; destruct F as [F|F]; [lra|]|].
  - apply (N (2 * (r - 3) + 1)%Z); [rewrite Z.odd_add_mul_2 with (n := 1%Z) || rewrite Z.add_comm, Z.odd_add_mul_2; reflexivity|].
    rewrite <- F. f_equal. rewrite !plus_IZR, !mult_IZR, minus_IZR. field.
  - apply (N (2 * (r + 3) + 1)%Z); [rewrite Z.add_comm, Z.odd_add_mul_2; reflexivity|].
    rewrite <- F. f_equal. rewrite !plus_IZR, !mult_IZR, plus_IZR. field.
Qed.

Theorem C106_even_multiple_worse :
  forall e nthreads use_np nfitted ret_err ret_arr mas mns allow_huge t,
  size_ok e allow_huge 3 1 -> one_sigma e t ->
  exists map0 x y x' y',
    finds e half_a half_b ErrNone 3 nthreads use_np false nfitted ret_err ret_arr mas mns allow_huge map0 x y /\
    finds e half_a half_b ErrNone 6 nthreads use_np false nfitted ret_err ret_arr mas mns allow_huge map0 x' y' /\
    chi2_at 3 1 map0 y x = 0 /\ 0 < chi2_at 3 1 map0 y' x'.
Proof.
  intros e nt np nf re rc mas mns huge t Hh Ht.
  assert (G : explicit_grid (UInt 3) 3 1 (IZR 3) 6 6) by (cbn; repeat split; auto; lia).
  assert (G' : explicit_grid (UInt 6) 3 1 (IZR 6) 12 12) by (cbn; repeat split; auto; lia).
  assert (P3 : (0 < 3)%Z) by lia. assert (P1 : (0 < 1)%Z) by lia.
  assert (Hs : ErrNone = ErrNone /\ 1 = 1 \/ ErrNone = ErrScalar 1 /\ 1 <> 0) by auto.
  destruct (C39_minimum_on_grid e half_a half_b ErrNone (UInt 3) nt np false nf re rc mas mns huge 3 1 _ _ _ t eq_refl eq_refl P3 P1 I Hh G Ht)
    as [c [t1 [t2 [t3 [ym [xm [x [y [rest [i [j [Em [Sa [Ec [Hi [Hj [Edy [Edx Hmin]]]]]]]]]]]]]]]]]].
  destruct (C39_minimum_on_grid e half_a half_b ErrNone (UInt 6) nt np false nf re rc mas mns huge 3 1 _ _ _ t eq_refl eq_refl P3 P1 I Hh G' Ht)
    as [c' [t1' [t2' [t3' [ym' [xm' [x' [y' [rest' [i' [j' [Em' [Sa' [Ec' [Hi' [Hj' [Edy' [Edx' Hmin']]]]]]]]]]]]]]]]]].
  assert (Q := Em). rewrite Em' in Q. injection Q as -> _ _ _. clear Em'.
  assert (Q := is_argmin2_unique 3 1 (g2 c) _ _ Sa Sa'). injection Q as <- <-.
  destruct (map_interp e half_a half_b ErrNone 1 nt false np huge 3 1 c t1 t2 t3 eq_refl eq_refl P3 P1 Hh Hs Em) as [Sc [Vc Ic]].
  exists c, x, y, x', y'. split; [split; [exists t1, t2, t3; exact Em|exists rest; exact Ec]|].
  split; [split; [exists t1, t2, t3; exact Em|exists rest'; exact Ec']|].
  assert (IC : forall a b, chi2_at 3 1 c a b = chi2c 3 1 (prep false half_a 3 1) (prep false half_b 3 1) 1 a b) by (intros; apply Ic; reflexivity).
  (* shifting by half a pixel reproduces the second image *)
  assert (FH : forall b k, (0 <= k < 3)%Z -> fshift 3 1 (prep false half_a 3 1) (1 / 2) b k 0 = prep false half_b 3 1 k 0).
  { intros b k Hk. rewrite fshift31. unfold prep, half_a, half_b. cbn [get mk2]. cbn [Z.eqb].
    assert (k = 0 \/ k = 1 \/ k = 2)%Z as [-> | [-> | ->]] by lia; cbn [Z.eqb Pos.eqb].
    - replace (2 * PI * (0 - 1 / 2) / 3) with (- (PI / 3)) by field. rewrite cos_neg, cos_PI3. field.
    - replace (2 * PI * (1 - 1 / 2) / 3) with (PI / 3) by field. rewrite cos_PI3. field.
    - replace (2 * PI * (2 - 1 / 2) / 3) with PI by field. rewrite cos_PI. field. }
  assert (CH : forall b, chi2c 3 1 (prep false half_a 3 1) (prep false half_b 3 1) 1 (1 / 2) b = 0).
  { intros b. apply sum2_const0. intros k l Hk Hl. assert (l = 0%Z) as -> by lia. rewrite FH by auto. unfold Rdiv. ring. }
  split.
  - (* a node of the grid for factor 3 is at half a pixel *)
    assert (N : exists a, (0 <= a < 6)%Z /\ grid_shift 3 ym 6 (IZR 3) a = 1 / 2).
    { destruct Sa as [A1 [A2 [A3 _]]]. cbn [fst snd] in *.
      assert (xm = 0%Z) as -> by lia.
      assert (V : forall k, (0 <= k < 3)%Z -> g2 c k 0 = chi2_of 3 1 (prep false half_a 3 1) (prep false half_b 3 1) (fun _ _ => 1) (1 - k) 0).
      { intros k Hk. rewrite Vc by lia. reflexivity. }
      assert (S1 : forall g, sumR 1 g = g 0%Z). { intros g. change 1%Z with (0 + 1)%Z. rewrite sumR_S, sumR_0 by lia. ring. }
      assert (S3 : forall g, sumR 3 g = g 0%Z + g 1%Z + g 2%Z).
      { intros g. change 3%Z with (2 + 1)%Z. rewrite sumR_S by lia. change 2%Z with (1 + 1)%Z at 1. rewrite sumR_S by lia.
        change 1%Z with (0 + 1)%Z at 1. rewrite sumR_S by lia. rewrite sumR_0 by lia. change (0 + 1)%Z with 1%Z. change (1 + 1)%Z with 2%Z. ring. }
      assert (ym = 0 \/ ym = 1 \/ ym = 2)%Z as [-> | [-> | ->]] by lia.
      - exists 4%Z. split; [lia|]. unfold grid_shift. cbn. field.
      - exists 1%Z. split; [lia|]. unfold grid_shift. cbn. field.
      - exfalso. assert (L := A3 1%Z 0%Z ltac:(lia) ltac:(lia)). rewrite !V in L by lia.
        unfold chi2_of, pixel_sum in L. unfold sum2 in L. rewrite !S3, !S1 in L.
        unfold prep, half_a, half_b in L. cbn in L. lra. }
    destruct N as [a [Ha Ea]]. assert (L := Hmin a j Ha Hj). rewrite Ea, (IC (1 / 2)), CH in L.
    apply Rle_antisym; [exact L|]. rewrite IC. apply sum2_nonneg; intros; apply pow2_ge_0.
  - rewrite IC.
    assert (P : 0 <= chi2c 3 1 (prep false half_a 3 1) (prep false half_b 3 1) 1 y' x') by (apply sum2_nonneg; intros; apply pow2_ge_0).
    destruct P as [P|P]; [exact P|]. exfalso.
    assert (W := sum2_nonneg_0 3 1 (fun i j => ((prep false half_b 3 1 i j - fshift 3 1 (prep false half_a 3 1) y' x' i j) / 1) ^ 2)
         ltac:(intros; apply pow2_ge_0) (eq_sym P) 0%Z 0%Z ltac:(lia) ltac:(lia)).
    cbv beta in W. simpl in W. rewrite Rmult_1_r in W. apply Rsqr_0_uniq in W.
    rewrite fshift31 in W. unfold prep, half_a, half_b in W. cbn [get mk2 Z.eqb] in W.
    apply (cos_half_odd (6 * ym + i' - 12)%Z).
    replace (PI * IZR (2 * (6 * ym + i' - 12) + 1) / 18) with (2 * PI * (0 - y') / 3).
    + set (cc := cos _) in *. lra.
    + rewrite Edy'. unfold grid_shift. change (Z.even 3) with false. change ((3 - 1) / 2)%Z with 1%Z. rewrite plus_IZR, mult_IZR, minus_IZR, plus_IZR, mult_IZR. field.
Qed.
Print Assumptions C106_even_multiple_worse.

(** the hypotheses are met *)
Example C106_nonvacuous :
  one_sigma (Env true (2 ^ 40) false (fun _ _ => NaN)) (159358435 / 100000000) /\
  size_ok (Env true (2 ^ 40) false (fun _ _ => NaN)) false 5 5 /\
  Z.odd 5 = true /\ shape delta5 = [5; 5]%Z /\ no_real_symmetry 5 5 (prep false delta5 5 5) /\ (5 <= 7)%Z /\ Z.odd 3 = true.
Proof.
  destruct C38_nonvacuous as [_ [H _]]. repeat split; try lra; try lia; try exact H.
  right. cbn. lia.
Qed.
