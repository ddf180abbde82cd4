(** C113: every operation on pixels rounded *)
From Coq Require Import ZArith Lia List Reals Lra Bool.
From Coquelicot Require Import Complex.
From Verif Require Import Base NDim DFT Kernel Num Py Sum2 M_fast_ffts M_shift M_scale M_zoom M_upsample M_convolve M_correlate Arg M_chi2 M_xcorr M_register M_rounding M_rounding2 M_rounding3
  Spec L_shift L_scale L_upsample L_convolve Spec2 Spec3 Spec4 L_correlate L_chi2 L_register L_register2 L_register3
  L_chi2shift L_fshift L_xcorr P_xcorr P_xcorr2 P_xcorr3 P_chi2map P_chi2shift P_chi2shift2 P_register P_noise P_rounding P_rounding2 L_iterzoom2 L_rounding3.
Import ListNotations.
Open Scope R_scope.

(** size of the numbers entering pixel (i,j): |value| plus, when the mean is subtracted, the mean modulus; 0 where the error is 0 *)
Definition used_weight (zeromean : bool) (err : errarg) (a : arr num) (ny nx i j : Z) : R :=
  if err_zero err i j then 0 else weight zeromean a ny nx i j.
(** size of the numbers entering chi-squared *)
Definition chi2_size (zeromean : bool) (err : errarg) (im1 im2 : arr num) (ny nx : Z) : R :=
  let w1 := used_weight zeromean err im1 ny nx in let w2 := used_weight zeromean err im2 ny nx in let v := fun i j => sigma_of err i j ^ 2 in
  pixel_sum ny nx (fun i j => w2 i j ^ 2 / v i j)
  + 2 * (pixel_sum ny nx w1 * pixel_sum ny nx (fun i j => w2 i j / v i j))
  + match err with
    | ErrArr _ => pixel_sum ny nx (fun i j => w1 i j ^ 2) * pixel_sum ny nx (fun i j => 1 / v i j)
    | _ => pixel_sum ny nx (fun i j => w1 i j ^ 2 / v i j)
    end.

Lemma chi2_of_expand ny nx u1 u2 sg sy sx : (forall i j, (0 <= i < ny)%Z -> (0 <= j < nx)%Z -> sg i j <> 0) ->
  chi2_of ny nx u1 u2 sg sy sx = sum2 ny nx (fun i j => u2 i j ^ 2 / sg i j ^ 2)
    + -2 * sum2 ny nx (fun i j => u2 i j / sg i j ^ 2 * u1 ((i - sy) mod ny)%Z ((j - sx) mod nx)%Z)
    + sum2 ny nx (fun i j => 1 / sg i j ^ 2 * u1 ((i - sy) mod ny)%Z ((j - sx) mod nx)%Z ^ 2).
Proof.
  intros H. unfold chi2_of. change (pixel_sum ny nx) with (sum2 ny nx). rewrite <- sum2_scal, <- !sum2_plus. apply sum2_ext. intros i j Hi Hj. field. auto.
Qed.

Section Map.
Variables (A : arith) (S : sarith) (eps : R) (e : env) (huge : bool) (ny nx : Z).
Hypotheses (Hy : (0 < ny)%Z) (Hx : (0 < nx)%Z) (Hh : size_ok e huge ny nx) (HA : accurate eps [ny; nx] A) (HS : accurate_scalar eps (Z.to_nat (ny * nx)) S) (He : eps <= 1 / 2).
Let e0 : 0 <= eps. Proof. exact (proj1 HS). Qed.
Let pw n : 1 <= (1 + eps) ^ n. Proof. apply pow_R1_Rle. lra. Qed.
Let pm n m : (n <= m)%nat -> (1 + eps) ^ n <= (1 + eps) ^ m. Proof. intros. apply Rle_pow; auto. lra. Qed.
Let Hp : pos_shape [ny; nx]. Proof. apply pos2; auto. Qed.

Lemma near_p n m M x' x : near ((1 + eps) ^ n) M x' x -> (n <= m)%nat -> near ((1 + eps) ^ m) M x' x.
Proof. intros H L. eapply near_weaken; [exact H|auto]. Qed.
Lemma near_rdp n M x' x : near ((1 + eps) ^ n) M x' x -> near ((1 + eps) ^ (1 + n)) M (sa_rd S x') x.
Proof. intros H. exact (near_rd eps _ S HS _ _ _ _ H). Qed.
Lemma near_mulp n m M N x' x y' y : near ((1 + eps) ^ n) M x' x -> near ((1 + eps) ^ m) N y' y -> near ((1 + eps) ^ (n + m)) (M * N) (x' * y') (x * y).
Proof. intros H K. rewrite pow_add. apply near_mul; auto. Qed.
Lemma near_sqp n M x' x : near ((1 + eps) ^ n) M x' x -> near ((1 + eps) ^ (n + n)) (M ^ 2) (x' ^ 2) (x ^ 2).
Proof. intros H. replace (M ^ 2) with (M * M) by ring. replace (x' ^ 2) with (x' * x') by ring. replace (x ^ 2) with (x * x) by ring. apply near_mulp; auto. Qed.
Lemma near_divp n M x' x s : s <> 0 -> near ((1 + eps) ^ n) M x' x -> near ((1 + eps) ^ (2 + n)) (M / s ^ 2) (x' / sa_rd S (s ^ 2)) (x / s ^ 2).
Proof. intros Hs H. rewrite pow_add. apply (near_div eps _ S HS); auto. Qed.
Lemma near_sump n (M f' f : Z -> Z -> R) (F' : list Z -> R) : (forall i j, (0 <= i < ny)%Z -> (0 <= j < nx)%Z -> F' [i; j] = f' i j /\ near ((1 + eps) ^ n) (M i j) (f' i j) (f i j)) ->
  near ((1 + eps) ^ (1 + n)) (pixel_sum ny nx M) (sa_sum S (values [ny; nx] F')) (sum2 ny nx f).
Proof.
  intros H. assert (Q := near_values eps _ S HS [ny; nx] ((1 + eps) ^ n) (fun y => img2 M y) F' (fun y => img2 f y) (pw n) Hp).
  rewrite !sum2_sumNR in Q. apply Q.
  - cbn [prodZ fold_right]. rewrite Z.mul_1_r. lia.
  - intros y Hin. apply inb2 in Hin. destruct Hin as [i [j [-> [Hi Hj]]]]. cbn [img2]. destruct (H i j Hi Hj) as [-> K]. exact K.
Qed.

Variables (u1 u2 w1 w2 sg : Z -> Z -> R) (g1 g2' er : list Z -> R).
Hypotheses (G1 : forall i j, (0 <= i < ny)%Z -> (0 <= j < nx)%Z -> near ((1 + eps) ^ 3) (w1 i j) (g1 [i; j]) (u1 i j))
  (G2 : forall i j, (0 <= i < ny)%Z -> (0 <= j < nx)%Z -> near ((1 + eps) ^ 3) (w2 i j) (g2' [i; j]) (u2 i j))
  (G3 : forall i j, (0 <= i < ny)%Z -> (0 <= j < nx)%Z -> er [i; j] = sg i j /\ sg i j <> 0).

Lemma finish_near ra red t3 M3 (T3 : Z -> Z -> R) : (red = true -> (ny * nx <> 2)%Z) ->
  (forall k l, (0 <= k < ny)%Z -> (0 <= l < nx)%Z -> near ((1 + eps) ^ 14) M3 (match t3 with T3scalar r => r | T3array a => get a [k; l] end) (T3 k l)) ->
  exists c' t1' t2', chi2_finish_rd A S (e_gb e) [ny; nx] BWrap ra red huge g1 g2' er t3 = Ok (if ra then Chi2All c' t1' t2' t3 else Chi2Only c') /\ shape c' = [ny; nx] /\
    forall k l, (0 <= k < ny)%Z -> (0 <= l < nx)%Z ->
      let V := sum2 ny nx (fun i j => u2 i j ^ 2 / sg i j ^ 2)
        + -2 * sum2 ny nx (fun i j => u2 i j / sg i j ^ 2 * u1 ((i - ((ny - 1) / 2 - k)) mod ny)%Z ((j - ((nx - 1) / 2 - l)) mod nx)%Z) + T3 k l in
      let W := pixel_sum ny nx (fun i j => w2 i j ^ 2 / sg i j ^ 2) + 2 * (pixel_sum ny nx w1 * pixel_sum ny nx (fun i j => w2 i j / sg i j ^ 2)) + M3 in
      if red then near ((1 + eps) ^ 17) (W / Rabs (IZR (ny * nx) - 2)) (g2 c' k l) (V / (IZR (ny * nx) - 2)) else near ((1 + eps) ^ 16) W (g2 c' k l) V.
Proof.
  intros Hred H3. unfold chi2_finish_rd. cbv zeta. rewrite prodZ_2.
  assert (T1 : near ((1 + eps) ^ 11) (pixel_sum ny nx (fun i j => w2 i j ^ 2 / sg i j ^ 2)) (sa_sum S (values [ny; nx] (fun i => sa_rd S (sa_rd S (g2' i ^ 2) / sa_rd S (er i ^ 2))))) (sum2 ny nx (fun i j => u2 i j ^ 2 / sg i j ^ 2))).
  { apply (near_sump 10) with (f' := fun i j => sa_rd S (sa_rd S (g2' [i; j] ^ 2) / sa_rd S (sg i j ^ 2))). intros i j Hi Hj. destruct (G3 i j Hi Hj) as [-> Hs]. split; [reflexivity|].
    apply (near_rdp 9), (near_divp 7); auto. apply (near_rdp 6), (near_sqp 3). auto. }
  destruct (near_corr A eps e g1 (fun i => sa_rd S (g2' i / sa_rd S (er i ^ 2))) (img2 u1) (img2 (fun i j => u2 i j / sg i j ^ 2)) w1 (fun i j => w2 i j / sg i j ^ 2)
    ((1 + eps) ^ 3) ((1 + eps) ^ 6) huge ny nx Hy Hx Hh HA (pw 3) (pw 6)) as [cc [E [Sc V]]].
  { auto. }
  { intros i j Hi Hj. cbn [img2]. destruct (G3 i j Hi Hj) as [-> Hs]. apply (near_rdp 5), (near_divp 3); auto. }
  rewrite E. cbn [bind].
  assert (F : forall k l, (0 <= k < ny)%Z -> (0 <= l < nx)%Z -> near ((1 + eps) ^ 16)
    (pixel_sum ny nx (fun i j => w2 i j ^ 2 / sg i j ^ 2) + 2 * (pixel_sum ny nx w1 * pixel_sum ny nx (fun i j => w2 i j / sg i j ^ 2)) + M3)
    (sa_rd S (sa_rd S (sa_sum S (values [ny; nx] (fun i => sa_rd S (sa_rd S (g2' i ^ 2) / sa_rd S (er i ^ 2)))) + sa_rd S (-2 * get cc [k; l])) + match t3 with T3scalar r => r | T3array a => get a [k; l] end))
    (sum2 ny nx (fun i j => u2 i j ^ 2 / sg i j ^ 2)
        + -2 * sum2 ny nx (fun i j => u2 i j / sg i j ^ 2 * u1 ((i - ((ny - 1) / 2 - k)) mod ny)%Z ((j - ((nx - 1) / 2 - l)) mod nx)%Z) + T3 k l)).
  { intros k l Hk Hl. apply (near_rdp 15), near_add; [|apply (near_p 14); [auto|lia]]. apply (near_rdp 14), near_add; [apply (near_p 11); [exact T1|lia]|].
    apply (near_rdp 13). specialize (V k l Hk Hl). apply (near_scal _ _ (-2)) in V. rewrite Rabs_left in V by lra. eapply near_eq; [exact V|ring|ring]. }
  destruct red.
  - destruct (Z.eqb_spec (ny * nx) 2) as [Q|_]; [exfalso; apply Hred; auto|]. cbn [bind amap get shape]. eexists _, _, _. split; [reflexivity|]. split; [reflexivity|].
    intros k l Hk Hl. cbv zeta. specialize (F k l Hk Hl). unfold g2. cbn [get]. apply (near_rdp 16). 
    match goal with |- near ?p (?W / ?d) (?x / ?c) (?V / ?c) => replace (W / d) with (Rabs (/ c) * W) by (rewrite Rabs_inv; unfold Rdiv; ring);
      replace (x / c) with (/ c * x) by (unfold Rdiv; ring); replace (V / c) with (/ c * V) by (unfold Rdiv; ring) end.
    apply near_scal. exact F.
  - cbn [bind]. eexists _, _, _. split; [reflexivity|]. split; [reflexivity|]. intros k l Hk Hl. cbv zeta. unfold g2. cbn [get amap]. apply F; auto.
Qed.
End Map.

Lemma map_rd_near A S eps e im1 im2 err zm ra red huge ny nx :
  shape im1 = [ny; nx] -> shape im2 = [ny; nx] -> (0 < ny)%Z -> (0 < nx)%Z -> err_ok err ny nx -> size_ok e huge ny nx -> (red = true -> (ny * nx <> 2)%Z) ->
  accurate eps [ny; nx] A -> accurate_scalar eps (Z.to_nat (ny * nx)) S -> eps <= 1 / 2 ->
  exists c' t1' t2' t3', chi2n_map_rd A S (e_gb e) im1 im2 err BWrap zm ra red huge = Ok (if ra then Chi2All c' t1' t2' t3' else Chi2Only c') /\ shape c' = [ny; nx] /\
    forall k l, (0 <= k < ny)%Z -> (0 <= l < nx)%Z ->
      let V := chi2_of ny nx (used_image zm err im1 ny nx) (used_image zm err im2 ny nx) (sigma_of err) ((ny - 1) / 2 - k) ((nx - 1) / 2 - l) in
      let W := chi2_size zm err im1 im2 ny nx in
      if red then near ((1 + eps) ^ 17) (W / Rabs (IZR (ny * nx) - 2)) (g2 c' k l) (V / (IZR (ny * nx) - 2)) else near ((1 + eps) ^ 16) W (g2 c' k l) V.
Proof.
  intros H1 H2 Hy Hx Hr Hh Hred HA HS He. assert (e0 := proj1 HS). assert (pw : forall n, 1 <= (1 + eps) ^ n) by (intros; apply pow_R1_Rle; lra).
  assert (SG : forall i j, sigma_of err i j <> 0) by (intros; apply (sigma_nz err ny nx); auto).
  assert (Z1 : forall i j, (0 <= i < ny)%Z -> (0 <= j < nx)%Z -> near ((1 + eps) ^ 3) (weight zm im1 ny nx i j) (nan0 (get (zero_mean_rd S zm im1) [i; j])) (prep zm im1 ny nx i j))
    by (intros; apply (near_zero_mean eps _ S HS); auto).
  assert (Z2 : forall i j, (0 <= i < ny)%Z -> (0 <= j < nx)%Z -> near ((1 + eps) ^ 3) (weight zm im2 ny nx i j) (nan0 (get (zero_mean_rd S zm im2) [i; j])) (prep zm im2 ny nx i j))
    by (intros; apply (near_zero_mean eps _ S HS); auto).
  assert (FN := fun u1 u2 w1 w2 g1 g2' er G1 G2 G3 => finish_near A S eps e huge ny nx Hy Hx Hh HA HS He u1 u2 w1 w2 (sigma_of err) g1 g2' er G1 G2 G3 ra red).
  unfold chi2n_map_rd. rewrite H1, H2. destruct (list_eq_dec Z.eq_dec [ny; nx] [ny; nx]) as [_|N]; [|congruence]. cbn [negb]. cbv zeta.
  set (f1 := fun i => nan0 (get (zero_mean_rd S zm im1) i)). set (f2 := fun i => nan0 (get (zero_mean_rd S zm im2) i)).
  assert (SC : forall s, s <> 0 -> err_zero err = (fun _ _ => false) -> sigma_of err = (fun _ _ => s) ->
    exists c' t1' t2' t3', chi2_finish_rd A S (e_gb e) [ny; nx] BWrap ra red huge f1 f2 (fun _ => s) (T3scalar (sa_sum S (values [ny; nx] (fun i => sa_rd S (sa_rd S (f1 i ^ 2) / sa_rd S (s ^ 2)))))) =
      Ok (if ra then Chi2All c' t1' t2' t3' else Chi2Only c') /\ shape c' = [ny; nx] /\
    forall k l, (0 <= k < ny)%Z -> (0 <= l < nx)%Z ->
      let V := chi2_of ny nx (used_image zm err im1 ny nx) (used_image zm err im2 ny nx) (sigma_of err) ((ny - 1) / 2 - k) ((nx - 1) / 2 - l) in
      let W := pixel_sum ny nx (fun i j => used_weight zm err im2 ny nx i j ^ 2 / sigma_of err i j ^ 2)
        + 2 * (pixel_sum ny nx (used_weight zm err im1 ny nx) * pixel_sum ny nx (fun i j => used_weight zm err im2 ny nx i j / sigma_of err i j ^ 2))
        + pixel_sum ny nx (fun i j => used_weight zm err im1 ny nx i j ^ 2 / sigma_of err i j ^ 2) in
      if red then near ((1 + eps) ^ 17) (W / Rabs (IZR (ny * nx) - 2)) (g2 c' k l) (V / (IZR (ny * nx) - 2)) else near ((1 + eps) ^ 16) W (g2 c' k l) V).
  { intros s Hs EZ ES.
    assert (W1 : forall i j, (0 <= i < ny)%Z -> (0 <= j < nx)%Z -> near ((1 + eps) ^ 3) (used_weight zm err im1 ny nx i j) (f1 [i; j]) (used_image zm err im1 ny nx i j))
      by (intros; unfold used_weight, used_image; rewrite EZ; apply Z1; auto).
    assert (W2 : forall i j, (0 <= i < ny)%Z -> (0 <= j < nx)%Z -> near ((1 + eps) ^ 3) (used_weight zm err im2 ny nx i j) (f2 [i; j]) (used_image zm err im2 ny nx i j))
      by (intros; unfold used_weight, used_image; rewrite EZ; apply Z2; auto).
    destruct (FN _ _ _ _ f1 f2 (fun _ => s) W1 W2 ltac:(intros; rewrite ES; auto)
      (T3scalar (sa_sum S (values [ny; nx] (fun i => sa_rd S (sa_rd S (f1 i ^ 2) / sa_rd S (s ^ 2))))))
      (pixel_sum ny nx (fun i j => used_weight zm err im1 ny nx i j ^ 2 / sigma_of err i j ^ 2))
      (fun k l => sum2 ny nx (fun i j => 1 / sigma_of err i j ^ 2 * used_image zm err im1 ny nx ((i - ((ny - 1) / 2 - k)) mod ny)%Z ((j - ((nx - 1) / 2 - l)) mod nx)%Z ^ 2)) Hred)
      as [c' [t1' [t2' [E [Sc V]]]]].
    - intros k l Hk Hl. apply (near_p S eps ny nx HS 11); [|lia]. rewrite ES. 
      replace (sum2 ny nx (fun i j => 1 / s ^ 2 * used_image zm err im1 ny nx ((i - ((ny - 1) / 2 - k)) mod ny)%Z ((j - ((nx - 1) / 2 - l)) mod nx)%Z ^ 2)) with (sum2 ny nx (fun i j => used_image zm err im1 ny nx i j ^ 2 / s ^ 2)).
      + apply (near_sump S eps ny nx Hy Hx HS 10) with (f' := fun i j => sa_rd S (sa_rd S (f1 [i; j] ^ 2) / sa_rd S (s ^ 2))).
        intros i j Hi Hj. split; [reflexivity|]. apply (near_rdp S eps ny nx HS 9), (near_divp S eps ny nx HS He 7); auto. apply (near_rdp S eps ny nx HS 6), (near_sqp eps 3). auto.
      + rewrite <- (sum2_shift ny nx (fun i j => used_image zm err im1 ny nx i j ^ 2 / s ^ 2) (- ((ny - 1) / 2 - k)) (- ((nx - 1) / 2 - l))) by auto. apply sum2_ext. intros i j Hi Hj. rewrite !Z.add_opp_r. field. auto.
    - exists c', t1', t2', (T3scalar (sa_sum S (values [ny; nx] (fun i => sa_rd S (sa_rd S (f1 i ^ 2) / sa_rd S (s ^ 2)))))). split; [exact E|]. split; [exact Sc|]. intros k l Hk Hl. cbv zeta. rewrite chi2_of_expand by auto. apply V; auto. }
  destruct err as [|s|er].
  - apply (SC 1); auto; lra.
  - cbn in Hr. destruct (Req_EM_T s 0) as [|_]; [contradiction|]. apply (SC s); auto.
  - cbn in Hr. rewrite Hr. destruct (list_eq_dec Z.eq_dec [ny; nx] [ny; nx]) as [_|N]; [|congruence]. cbn [negb].
    assert (PX : forall i j, nan0 (get er [i; j]) = px er i j) by (intros; unfold px; destruct (get er [i; j]); reflexivity).
    set (g1 := fun i => if (if Req_EM_T (nan0 (get er i)) 0 then true else false) then 0 else f1 i).
    set (g2' := fun i => if (if Req_EM_T (nan0 (get er i)) 0 then true else false) then 0 else f2 i).
    set (er' := fun i => if (if Req_EM_T (nan0 (get er i)) 0 then true else false) then 1 else nan0 (get er i)).
    assert (W1 : forall i j, (0 <= i < ny)%Z -> (0 <= j < nx)%Z -> near ((1 + eps) ^ 3) (used_weight zm (ErrArr er) im1 ny nx i j) (g1 [i; j]) (used_image zm (ErrArr er) im1 ny nx i j)).
    { intros i j Hi Hj. unfold used_weight, used_image, g1, err_zero. rewrite PX. destruct (Req_EM_T (px er i j) 0); [apply near_refl; [auto|rewrite Rabs_R0; lra]|apply Z1; auto]. }
    assert (W2 : forall i j, (0 <= i < ny)%Z -> (0 <= j < nx)%Z -> near ((1 + eps) ^ 3) (used_weight zm (ErrArr er) im2 ny nx i j) (g2' [i; j]) (used_image zm (ErrArr er) im2 ny nx i j)).
    { intros i j Hi Hj. unfold used_weight, used_image, g2', err_zero. rewrite PX. destruct (Req_EM_T (px er i j) 0); [apply near_refl; [auto|rewrite Rabs_R0; lra]|apply Z2; auto]. }
    assert (ER : forall i j, er' [i; j] = sigma_of (ErrArr er) i j).
    { intros i j. unfold er', sigma_of, err_zero. rewrite PX. reflexivity. }
    destruct (near_corr A eps e (fun i => sa_rd S (g1 i ^ 2)) (fun i => sa_rd S (1 / sa_rd S (er' i ^ 2))) (img2 (fun i j => used_image zm (ErrArr er) im1 ny nx i j ^ 2)) (img2 (fun i j => 1 / sigma_of (ErrArr er) i j ^ 2))
      (fun i j => used_weight zm (ErrArr er) im1 ny nx i j ^ 2) (fun i j => 1 / sigma_of (ErrArr er) i j ^ 2) ((1 + eps) ^ 7) ((1 + eps) ^ 3) huge ny nx Hy Hx Hh HA (pw 7%nat) (pw 3%nat)) as [t3 [E3 [S3 V3]]].
    { intros i j Hi Hj. cbn [img2]. apply (near_rdp S eps ny nx HS 6), (near_sqp eps 3). auto. }
    { intros i j Hi Hj. cbn [img2]. rewrite ER. apply (near_rdp S eps ny nx HS 2), (near_divp S eps ny nx HS He 0); auto. apply near_refl; [cbn; lra|rewrite Rabs_R1; lra]. }
    match goal with |- context [bind (correlate2d_with ?a ?b ?c ?d ?f ?g) _] => replace (correlate2d_with a b c d f g) with (Ok t3) by (symmetry; exact E3) end. cbn [bind].
    destruct (FN _ _ _ _ g1 g2' er' W1 W2 ltac:(intros; rewrite ER; auto) (T3array t3)
      (pixel_sum ny nx (fun i j => used_weight zm (ErrArr er) im1 ny nx i j ^ 2) * pixel_sum ny nx (fun i j => 1 / sigma_of (ErrArr er) i j ^ 2))
      (fun k l => sum2 ny nx (fun i j => 1 / sigma_of (ErrArr er) i j ^ 2 * used_image zm (ErrArr er) im1 ny nx ((i - ((ny - 1) / 2 - k)) mod ny)%Z ((j - ((nx - 1) / 2 - l)) mod nx)%Z ^ 2)) Hred)
      as [c' [t1' [t2' [E [Sc V]]]]].
    + intros k l Hk Hl. specialize (V3 k l Hk Hl). eapply near_eq; [exact V3|ring|reflexivity].
    + exists c', t1', t2', (T3array t3). split; [exact E|]. split; [exact Sc|]. intros k l Hk Hl. cbv zeta. rewrite chi2_of_expand by auto. apply V; auto.
Qed.

(** *** chi2n_map *)
Theorem C113_chi2n_map :
  forall A S eps e im1 im2 err nthreads use_np zeromean return_all reduced allow_huge ny nx,
  shape im1 = [ny; nx] -> shape im2 = [ny; nx] -> (0 < ny)%Z -> (0 < nx)%Z -> err_ok err ny nx -> size_ok e allow_huge ny nx ->
  (reduced = true -> (ny * nx <> 2)%Z) ->
  accurate eps [ny; nx] A -> accurate_scalar eps (Z.to_nat (ny * nx)) S -> eps <= 1 / 2 ->
  exists r r', chi2n_map e im1 im2 err BWrap nthreads zeromean use_np return_all reduced allow_huge = Ok r /\
    chi2n_map_rd A S (e_gb e) im1 im2 err BWrap zeromean return_all reduced allow_huge = Ok r' /\ shape (chi2_of_res r') = [ny; nx] /\
    let size := chi2_size zeromean err im1 im2 ny nx / (if reduced : bool then Rabs (IZR (ny * nx) - 2) else 1) in
    forall k l, (0 <= k < ny)%Z -> (0 <= l < nx)%Z ->
      Rabs (g2 (chi2_of_res r) k l) <= size /\ Rabs (g2 (chi2_of_res r') k l - g2 (chi2_of_res r) k l) <= size * ((1 + eps) ^ 17 - 1).
Proof.
  intros A S eps e im1 im2 err nt np zm ra red huge ny nx H1 H2 Hy Hx Hr Hh Hred HA HS He.
  destruct (chi2n_map_ok e im1 im2 err nt zm np ra red huge ny nx H1 H2 Hy Hx Hr Hh Hred) as [c [t1 [t2 [t3 [E [Sc [_ [_ V]]]]]]]].
  destruct (map_rd_near A S eps e im1 im2 err zm ra red huge ny nx H1 H2 Hy Hx Hr Hh Hred HA HS He) as [c' [t1' [t2' [t3' [E' [Sc' V']]]]]].
  eexists _, _. split; [exact E|]. split; [exact E'|].
  assert (EQ : forall (x : arr R) a b d, chi2_of_res (if ra then Chi2All x a b d else Chi2Only x) = x) by (intros; destruct ra; reflexivity). rewrite !EQ.
  split; [exact Sc'|]. intros size k l Hk Hl. destruct (V k l Hk Hl) as [_ [_ ->]]. specialize (V' k l Hk Hl). cbv zeta in V'. subst size. destruct red.
  - split; apply V'.
  - assert (e0 := proj1 HS). apply (near_p S eps ny nx HS 16 17) in V'; [|lia]. unfold Rdiv; rewrite Rinv_1, Rmult_1_r. split; apply V'.
Qed.
Print Assumptions C113_chi2n_map.

(** *** chi2_shift *)
Definition chi2_error (eps : R) (zeromean : bool) (err : errarg) (im1 im2 : arr num) (ny nx : Z) : R :=
  chi2_size zeromean err im1 im2 ny nx * ((1 + eps) ^ 16 - 1).
Definition node_error (eps : R) (zeromean : bool) (err : errarg) (im1 im2 : arr num) (ny nx : Z) (map0 : arr R) : R :=
  let d := IZR (ny * nx) * chi2_error eps zeromean err im1 im2 ny nx in
  d + (pixel_sum ny nx (fun k l => Rabs (g2 map0 k l)) + d) * ((1 + eps) ^ 5 - 1).

Theorem C113_chi2_shift :
  forall A S B eps T e im1 im2 err us nthreads use_np zeromean nfitted ret_err ret_arr mas mns allow_huge ny nx u s1 s2 t,
  shape im1 = [ny; nx] -> shape im2 = [ny; nx] -> (0 < ny)%Z -> (0 < nx)%Z -> err_ok err ny nx -> size_ok e allow_huge ny nx ->
  explicit_grid us ny nx u s1 s2 -> phase_room T ny s1 u -> phase_room T nx s2 u -> one_sigma e t ->
  accurate eps [ny; nx] A -> accurate_scalar eps (Z.to_nat (ny * nx)) S -> accurate_zoom eps T [ny; nx] B -> eps <= 1 / 2 ->
  exists map0 t1 t2 t3 ym xm dx dy rest i j,
    chi2n_map e im1 im2 err BWrap nthreads zeromean use_np true false allow_huge = Ok (Chi2All map0 t1 t2 t3) /\
    chi2_shift_rd A S B e im1 im2 err us BWrap zeromean nfitted false ret_err ret_arr mas mns allow_huge = Ok (RNum dx :: RNum dy :: rest) /\
    (0 <= ym < ny)%Z /\ (0 <= xm < nx)%Z /\
    (forall k l, (0 <= k < ny)%Z -> (0 <= l < nx)%Z -> g2 map0 ym xm <= g2 map0 k l + 2 * chi2_error eps zeromean err im1 im2 ny nx) /\
    (0 <= i < s1)%Z /\ (0 <= j < s2)%Z /\ dy = grid_shift ny ym s1 u i /\ dx = grid_shift nx xm s2 u j /\
    (forall a b, (0 <= a < s1)%Z -> (0 <= b < s2)%Z ->
       chi2_at ny nx map0 dy dx <= chi2_at ny nx map0 (grid_shift ny ym s1 u a) (grid_shift nx xm s2 u b) + 2 * node_error eps zeromean err im1 im2 ny nx map0).
Proof.
  intros A S B eps T e im1 im2 err us nt np zm nf re rc mas mns huge ny nx u s1 s2 t H1 H2 Hy Hx He Hh Hg HTy HTx Ht HA HS HB Heps.
  destruct (chi2n_map_ok e im1 im2 err nt zm np true false huge ny nx H1 H2 Hy Hx He Hh ltac:(discriminate)) as [c [t1 [t2 [t3 [E [Sc [_ [_ V]]]]]]]].
  destruct (map_rd_near A S eps e im1 im2 err zm true false huge ny nx H1 H2 Hy Hx He Hh ltac:(discriminate) HA HS Heps) as [c' [t1' [t2' [t3' [E' [Sc' V']]]]]].
  assert (D : forall k l, (0 <= k < ny)%Z -> (0 <= l < nx)%Z -> Rabs (g2 c' k l - g2 c k l) <= chi2_error eps zm err im1 im2 ny nx).
  { intros k l Hk Hl. destruct (V k l Hk Hl) as [_ [_ ->]]. apply (V' k l Hk Hl). }
  assert (D0 : 0 <= chi2_error eps zm err im1 im2 ny nx) by (refine (Rle_trans _ _ _ (Rabs_pos _) (D 0%Z 0%Z ltac:(lia) ltac:(lia)))).
  destruct (tail_near B eps T e us nf re rc mas mns ny nx c c' t1' t2' t3' u s1 s2 t _ Hy Hx Sc Sc' D0 D HB Hg HTy HTx Ht) as [ym [xm [i [j [rest [Am [Hi [Hj [Et M]]]]]]]]].
  exists c, t1, t2, t3, ym, xm, (grid_shift nx xm s2 u j), (grid_shift ny ym s1 u i), rest, i, j. split; [exact E|].
  split; [unfold chi2_shift_rd; rewrite E'; cbn [bind]; rewrite H1; exact Et|].
  destruct Am as [A1 [A2 [A3 _]]]. cbn [fst snd] in *. split; [exact A1|]. split; [exact A2|]. split.
  { intros k l Hk Hl. specialize (A3 k l Hk Hl). assert (N1 := D k l Hk Hl). assert (N2 := D ym xm A1 A2).
    apply Rcomplements.Rabs_le_between in N1. apply Rcomplements.Rabs_le_between in N2. lra. }
  split; [exact Hi|]. split; [exact Hj|]. split; [reflexivity|]. split; [reflexivity|]. exact M.
Qed.
Print Assumptions C113_chi2_shift.

Theorem C113_chi2_shift_same_answer :
  forall A S B eps T e im1 im2 err us nthreads use_np zeromean nfitted ret_err ret_arr mas mns allow_huge ny nx u s1 s2 t map0 t1 t2 t3 ym xm i j,
  shape im1 = [ny; nx] -> shape im2 = [ny; nx] -> (0 < ny)%Z -> (0 < nx)%Z -> err_ok err ny nx -> size_ok e allow_huge ny nx ->
  explicit_grid us ny nx u s1 s2 -> phase_room T ny s1 u -> phase_room T nx s2 u -> one_sigma e t ->
  accurate eps [ny; nx] A -> accurate_scalar eps (Z.to_nat (ny * nx)) S -> accurate_zoom eps T [ny; nx] B -> eps <= 1 / 2 ->
  chi2n_map e im1 im2 err BWrap nthreads zeromean use_np true false allow_huge = Ok (Chi2All map0 t1 t2 t3) ->
  (0 <= ym < ny)%Z -> (0 <= xm < nx)%Z -> (0 <= i < s1)%Z -> (0 <= j < s2)%Z ->
  let d := chi2_error eps zeromean err im1 im2 ny nx in let D := node_error eps zeromean err im1 im2 ny nx map0 in
  let chi2_node := fun a b => chi2_at ny nx map0 (grid_shift ny ym s1 u a) (grid_shift nx xm s2 u b) in
  (forall k l, (0 <= k < ny)%Z -> (0 <= l < nx)%Z -> (k, l) <> (ym, xm) -> g2 map0 ym xm + 2 * d < g2 map0 k l) ->
  (forall a b, (0 <= a < s1)%Z -> (0 <= b < s2)%Z -> (a, b) <> (i, j) -> chi2_node i j + 2 * D < chi2_node a b) ->
  exists rest rest',
    chi2_shift_rd A S B e im1 im2 err us BWrap zeromean nfitted false ret_err ret_arr mas mns allow_huge =
      Ok (RNum (grid_shift nx xm s2 u j) :: RNum (grid_shift ny ym s1 u i) :: rest) /\
    chi2_shift e im1 im2 err us BWrap nthreads use_np zeromean nfitted false ret_err ret_arr mas mns allow_huge =
      Ok (RNum (grid_shift nx xm s2 u j) :: RNum (grid_shift ny ym s1 u i) :: rest').
Proof.
  intros A S B eps T e im1 im2 err us nt np zm nf re rc mas mns huge ny nx u s1 s2 t c t1 t2 t3 ym xm i j H1 H2 Hy Hx He Hh Hg HTy HTx Ht HA HS HB Heps Em Hym Hxm Hi Hj d D node G1 G2.
  assert (D0 : 0 <= d /\ 0 <= D).
  { destruct (map_rd_near A S eps e im1 im2 err zm true false huge ny nx H1 H2 Hy Hx He Hh ltac:(discriminate) HA HS Heps) as [c' [_ [_ [_ [_ [_ V']]]]]].
    assert (D0 : 0 <= d) by (refine (Rle_trans _ _ _ (Rabs_pos _) (proj1 (proj2 (V' 0%Z 0%Z ltac:(lia) ltac:(lia)))))).
    split; [exact D0|]. unfold D, node_error. assert (e0 := proj1 HA). assert (P5 := pow_ge1 eps 5 e0). fold d. 
    assert (PN : 0 <= IZR (ny * nx)) by (apply IZR_le; nia). assert (Q := Rmult_le_pos _ _ PN D0).
    assert (Q2 : 0 <= pixel_sum ny nx (fun k l => Rabs (g2 c k l))) by (apply sumR_nonneg; intros; apply sumR_nonneg; intros; apply Rabs_pos).
    assert (Q3 : 0 <= (pixel_sum ny nx (fun k l => Rabs (g2 c k l)) + IZR (ny * nx) * d) * ((1 + eps) ^ 5 - 1)) by (apply Rmult_le_pos; lra). cbv zeta. lra. }
  destruct D0 as [D0 D1].
  assert (ND2 : forall p q : Z * Z, {p = q} + {p <> q}) by (decide equality; apply Z.eq_dec).
  destruct (C113_chi2_shift A S B eps T e im1 im2 err us nt np zm nf re rc mas mns huge ny nx u s1 s2 t H1 H2 Hy Hx He Hh Hg HTy HTx Ht HA HS HB Heps)
    as [c1 [a1 [a2 [a3 [ym' [xm' [dx [dy [rest [i' [j' [F1 [F2 [F3 [F4 [F5 [F6 [F7 [F8 [F9 F10]]]]]]]]]]]]]]]]]]]].
  rewrite Em in F1. injection F1 as <- <- <- <-.
  assert (E1 : (ym', xm') = (ym, xm)).
  { destruct (ND2 (ym', xm') (ym, xm)) as [Q|Q]; [exact Q|exfalso]. specialize (G1 ym' xm' F3 F4 Q). specialize (F5 ym xm Hym Hxm). fold d in F5. lra. }
  injection E1 as -> ->.
  assert (E2 : (i', j') = (i, j)).
  { destruct (ND2 (i', j') (i, j)) as [Q|Q]; [exact Q|exfalso]. specialize (G2 i' j' F6 F7 Q). specialize (F10 i j Hi Hj). fold D in F10. rewrite F8, F9 in F10. unfold node in G2. lra. }
  injection E2 as -> ->. subst dx dy.
  destruct (C39_minimum_on_grid e im1 im2 err us nt np zm nf re rc mas mns huge ny nx u s1 s2 t H1 H2 Hy Hx He Hh Hg Ht)
    as [c1 [b1 [b2 [b3 [ym' [xm' [dx [dy [rest' [i' [j' [K1 [K2 [K3 [K6 [K7 [K8 [K9 K10]]]]]]]]]]]]]]]]]].
  rewrite Em in K1. injection K1 as <- <- <- <-.
  assert (E1 : (ym', xm') = (ym, xm)).
  { destruct (ND2 (ym', xm') (ym, xm)) as [Q|Q]; [exact Q|exfalso]. destruct K2 as [A1 [A2 [A3 _]]]. cbn [fst snd] in *. specialize (G1 ym' xm' A1 A2 Q). specialize (A3 ym xm Hym Hxm). lra. }
  injection E1 as -> ->.
  assert (E2 : (i', j') = (i, j)).
  { destruct (ND2 (i', j') (i, j)) as [Q|Q]; [exact Q|exfalso]. specialize (G2 i' j' K6 K7 Q). specialize (K10 i j Hi Hj). rewrite K8, K9 in K10. unfold node in G2. lra. }
  injection E2 as -> ->. subst dx dy. exists rest, rest'. split; [exact F2|exact K3].
Qed.
Print Assumptions C113_chi2_shift_same_answer.

(** *** register_images, whole pixels *)
Definition peak_error (eps : R) (zeromean : bool) (im1 im2 : arr num) (ny nx : Z) : R :=
  pixel_sum ny nx (weight zeromean im1 ny nx) * pixel_sum ny nx (weight zeromean im2 ny nx) * ((1 + eps) ^ 11 - 1).

Theorem C113_register_images :
  forall A A' S eps im1 im2 ret_err zeromean maxoff ny nx,
  shape im1 = [ny; nx] -> shape im2 = [ny; nx] -> (0 < ny)%Z -> (0 < nx)%Z -> mo_ok maxoff ->
  accurate eps [ny; nx] A -> accurate eps [ny; nx] A' -> accurate_scalar eps (Z.to_nat (ny * nx)) S -> eps <= 1 / 2 ->
  let f := prep zeromean im1 ny nx in let g := prep zeromean im2 ny nx in
  exists ty tx : Z, register_images_rd A A' S im1 im2 ret_err zeromean maxoff = Ok (nums [IZR tx; IZR ty] ++ err_out ret_err 1) /\
    (- (ny / 2) <= ty <= (ny - 1) / 2)%Z /\ (- (nx / 2) <= tx <= (nx - 1) / 2)%Z /\ bounded maxoff ny ty /\ bounded maxoff nx tx /\
    forall s t, within maxoff s -> within maxoff t -> Rabs (ccf ny nx f g s t) <= Rabs (ccf ny nx f g ty tx) + 2 * peak_error eps zeromean im1 im2 ny nx.
Proof.
  intros A A' SA eps im1 im2 re zm mo ny nx H1 H2 Hy Hx HM HA HA' HS He f g. set (d := peak_error eps zm im1 im2 ny nx). assert (e0 := proj1 HA).
  assert (pw : forall n, 1 <= (1 + eps) ^ n) by (intros; apply pow_R1_Rle; lra).
  unfold register_images_rd. rewrite H1, H2. destruct (list_eq_dec Z.eq_dec [ny; nx] [ny; nx]) as [_|N]; [|congruence]. cbn [negb].
  assert (Hp : pos_shape [ny; nx]) by auto using pos2. rewrite check_fft_ok by auto. cbn [bind].
  set (f' := fun i j => nan0 (get (zero_mean_rd SA zm im1) [i; j])). set (g' := fun i j => nan0 (get (zero_mean_rd SA zm im2) [i; j])).
  set (w1 := weight zm im1 ny nx). set (w2 := weight zm im2 ny nx).
  assert (Z1 : forall i j, (0 <= i < ny)%Z -> (0 <= j < nx)%Z -> near ((1 + eps) ^ 3) (w1 i j) (f' i j) (f i j)) by (intros; apply (near_zero_mean eps _ SA HS); auto).
  assert (Z2 : forall i j, (0 <= i < ny)%Z -> (0 <= j < nx)%Z -> near ((1 + eps) ^ 3) (w2 i j) (g' i j) (g i j)) by (intros; apply (near_zero_mean eps _ SA HS); auto).
  set (X := Arr [ny; nx] (fun i => RtoC (nan0 (get (zero_mean_rd SA zm im1) i)))). set (Y := Arr [ny; nx] (fun i => RtoC (nan0 (get (zero_mean_rd SA zm im2) i)))).
  rewrite (proj1 (proj1 (proj2 HA) X eq_refl)).
  set (P := mk2 ny nx (fun i j => ar_mul A' (g2 (ar_fft A X) i j) (Cconj (g2 (ar_fft A Y) i j)))).
  set (SW := pixel_sum ny nx w1 * pixel_sum ny nx w2).
  assert (L : forall (w h' h : Z -> Z -> R), (forall i j, (0 <= i < ny)%Z -> (0 <= j < nx)%Z -> near ((1 + eps) ^ 3) (w i j) (h' i j) (h i j)) ->
    pixel_sum ny nx (fun i j => Rabs (h' i j)) <= pixel_sum ny nx w * (1 + eps) ^ 3).
  { intros w h' h H. rewrite Rmult_comm. change (pixel_sum ny nx) with (sum2 ny nx). rewrite <- sum2_scal. apply sum2_le. intros i j Hi Hj. rewrite Rmult_comm. apply (near_abs _ _ _ (h i j)). auto. }
  assert (W0 : forall (w h' h : Z -> Z -> R), (forall i j, (0 <= i < ny)%Z -> (0 <= j < nx)%Z -> near ((1 + eps) ^ 3) (w i j) (h' i j) (h i j)) ->
    forall i j, (0 <= i < ny)%Z -> (0 <= j < nx)%Z -> 0 <= w i j) by (intros w h' h H i j Hi Hj; apply (near_M _ _ _ _ (H i j Hi Hj))).
  assert (W1 := W0 _ _ _ Z1). assert (W2 := W0 _ _ _ Z2).
  assert (CN : forall s t, near ((1 + eps) ^ 6) SW (ccf ny nx f' g' s t) (ccf ny nx f g s t)).
  { intros s t. assert (Q : near ((1 + eps) ^ 6) (sum2 ny nx (fun i j => w1 ((i - s) mod ny)%Z ((j - t) mod nx)%Z * w2 i j)) (ccf ny nx f' g' s t) (ccf ny nx f g s t)).
    { unfold ccf. apply (near_sum2 ny nx ((1 + eps) ^ 6)); auto. intros i j Hi Hj. apply (near_mulp eps 3 3); auto. apply Z1; apply Z.mod_pos_bound; auto. }
    assert (B : sum2 ny nx (fun i j => w1 ((i - s) mod ny)%Z ((j - t) mod nx)%Z * w2 i j) <= SW).
    { unfold SW. change (pixel_sum ny nx w2) with (sum2 ny nx w2). rewrite <- sum2_scal. apply sum2_le. intros i j Hi Hj. apply Rmult_le_compat_r; auto.
      apply (sum2_term_le ny nx w1); auto; apply Z.mod_pos_bound; auto. }
    destruct Q as [Q1 [Q2 Q3]]. split; [exact Q1|]. split; [|lra]. refine (Rle_trans _ _ _ Q2 _). apply Rmult_le_compat_r; lra. }
  assert (B0 : forall i j, (0 <= i < ny)%Z -> (0 <= j < nx)%Z -> near ((1 + eps) ^ 11) SW (sa_rd SA (Cmod (g2 (ar_ifft A' P) i j))) (Rabs (ccf ny nx f g (- i) (- j)))).
  { intros i j Hi Hj.
    assert (Q := product_bound eps [ny; nx] A A' X Y [i; j] Cconj HA HA' Hp eq_refl eq_refl (inb2_intro ny nx i j Hi Hj)).
    assert (C1 : forall z w, Cmod (Cminus (Cconj z) (Cconj w)) = Cmod (Cminus z w)).
    { intros z w. rewrite <- (Cmod_Cconj (Cminus z w)). f_equal. unfold Cminus, Cplus, Copp, Cconj. cbn [fst snd]. f_equal; ring. }
    specialize (Q C1 Cmod_Cconj P eq_refl).
    assert (QE : forall k, inb [ny; nx] k -> get P k = ar_mul A' (get (ar_fft A X) k) (Cconj (get (ar_fft A Y) k))) by (intros k Hk; apply inb2 in Hk; destruct Hk as [y [x [-> _]]]; reflexivity).
    specialize (Q QE).
    assert (ZX : forall y, inb [ny; nx] y -> get X y = RtoC (img2 f' y)) by (intros y Hk; apply inb2 in Hk; destruct Hk as [a [b [-> [Ha Hb]]]]; reflexivity).
    assert (ZY : forall y, inb [ny; nx] y -> get Y y = RtoC (img2 g' y)) by (intros y Hk; apply inb2 in Hk; destruct Hk as [a [b [-> [Ha Hb]]]]; reflexivity).
    rewrite (idft_ext [ny; nx] _ (fun k => Cmult (dft [ny; nx] (fun y => RtoC (img2 f' y)) k) (Cconj (dft [ny; nx] (fun y => RtoC (img2 g' y)) k)))) in Q
      by (intros k _; rewrite (dft_ext _ _ _ k ZX), (dft_ext _ _ _ k ZY); reflexivity).
    rewrite rcc_grid1, <- !opp_IZR, rcc_int in Q by auto.
    assert (LX : P_rounding.l1 [ny; nx] (get X) = pixel_sum ny nx (fun i j => Rabs (f' i j))).
    { rewrite (P_rounding.l1_ext _ _ _ ZX). unfold P_rounding.l1. rewrite sum2_sumNR. apply sum2_ext. intros. cbn [img2]. apply Cmod_R. }
    assert (LY : P_rounding.l1 [ny; nx] (get Y) = pixel_sum ny nx (fun i j => Rabs (g' i j))).
    { rewrite (P_rounding.l1_ext _ _ _ ZY). unfold P_rounding.l1. rewrite sum2_sumNR. apply sum2_ext. intros. cbn [img2]. apply Cmod_R. }
    rewrite LX, LY in Q. apply (near_rdp SA eps ny nx HS 10). specialize (CN (- i)%Z (- j)%Z). destruct CN as [_ [N2 N3]].
    split; [auto|]. split; [|rewrite Rabs_Rabsolu; exact N3].
    assert (L1 := L _ _ _ Z1). assert (L2 := L _ _ _ Z2).
    assert (NN : forall h : Z -> Z -> R, 0 <= pixel_sum ny nx (fun i j => Rabs (h i j))) by (intros; apply sumR_nonneg; intros; apply sumR_nonneg; intros; apply Rabs_pos).
    assert (K := Rmult_le_compat _ _ _ _ (NN f') (NN g') L1 L2). assert (K2 := Rmult_le_compat_r ((1 + eps) ^ 4 - 1) _ _ ltac:(assert (Q4 := pw 4%nat); lra) K).
    assert (K3 := Cmod_diff (get (ar_ifft A' P) [i; j]) (RtoC (ccf ny nx f' g' (- i) (- j)))). rewrite Cmod_R in K3.
    assert (K4 : Rabs (Rabs (ccf ny nx f' g' (- i) (- j)) - Rabs (ccf ny nx f g (- i) (- j))) <= Rabs (ccf ny nx f' g' (- i) (- j) - ccf ny nx f g (- i) (- j))) by apply Rabs_triang_inv2.
    unfold g2. replace (Cmod (get (ar_ifft A' P) [i; j]) - Rabs (ccf ny nx f g (- i) (- j))) with
      ((Cmod (get (ar_ifft A' P) [i; j]) - Rabs (ccf ny nx f' g' (- i) (- j))) + (Rabs (ccf ny nx f' g' (- i) (- j)) - Rabs (ccf ny nx f g (- i) (- j)))) by ring.
    refine (Rle_trans _ _ _ (Rabs_triang _ _) _).
    replace (SW * ((1 + eps) ^ 10 - 1)) with (pixel_sum ny nx w1 * (1 + eps) ^ 3 * (pixel_sum ny nx w2 * (1 + eps) ^ 3) * ((1 + eps) ^ 4 - 1) + SW * ((1 + eps) ^ 6 - 1)) by (unfold SW; ring).
    lra. }
  assert (B : forall i j, (0 <= i < ny)%Z -> (0 <= j < nx)%Z -> Rabs (sa_rd SA (Cmod (g2 (ar_ifft A' P) i j)) - Rabs (ccf ny nx f g (- i) (- j))) <= d) by (intros i j Hi Hj; apply (B0 i j Hi Hj)).
  assert (R0 : forall z, 0 <= sa_rd SA (Cmod z)).
  { intros z. assert (Q := proj1 (proj2 HS) (Cmod z)). assert (C0 := Cmod_ge_0 z). rewrite (Rabs_right (Cmod z)) in Q by lra. apply Rcomplements.Rabs_le_between in Q.
    assert (Q2 := Rmult_le_compat_r (Cmod z) _ _ C0 He). lra. }
  assert (R00 : sa_rd SA 0 = 0).
  { assert (Q := proj1 (proj2 HS) 0). rewrite Rabs_R0, Rmult_0_r in Q. apply Rcomplements.Rabs_le_between in Q. lra. }
  clearbody P.
  rewrite (argmax2_ext' ny nx _ (maskR ny nx mo (fun i j => sa_rd SA (Cmod (g2 (ar_ifft A' P) i j))))).
  2,3: auto. 2:{ intros i j _ _. rewrite Cmod_limit. destruct mo as [k|]; [|reflexivity]. cbn [maskR]. destruct (_ || _)%bool; [exact R00|reflexivity]. }
  assert (S := masked_argmax ny nx mo (fun i j => sa_rd SA (Cmod (g2 (ar_ifft A' P) i j))) Hy Hx HM (fun i j => R0 _)).
  destruct (argmax2 ny nx _) as [rr c]. destruct S as [Hr [Hc [Ar [Ac S]]]].
  exists (- unwrap ny rr)%Z, (- unwrap nx c)%Z. split; [rewrite !opp_IZR; destruct re; reflexivity|].
  split; [apply unwrap_range; auto|]. split; [apply unwrap_range; auto|].
  assert (B1 := allowed_bounds _ _ _ Hy Hr Ar). assert (B2 := allowed_bounds _ _ _ Hx Hc Ac).
  split; [destruct mo; cbn [bounded]; tauto|]. split; [destruct mo; cbn [bounded]; tauto|]. intros s t Ws Wt.
  assert (Ms := Z.mod_pos_bound (- s) ny Hy). assert (Mt := Z.mod_pos_bound (- t) nx Hx).
  specialize (S _ _ Ms Mt (allowed_within _ _ _ Hy Ws) (allowed_within _ _ _ Hx Wt)). cbv beta in S.
  assert (Q1 := B _ _ Ms Mt). assert (Q2 := B _ _ Hr Hc).
  rewrite (ccf_mod ny nx f g (- ((- s) mod ny)) (- ((- t) mod nx)) s t) in Q1; auto.
  2,3: (match goal with |- ((- ((- ?q) mod ?n) - ?q) mod ?n = 0)%Z => apply Z.mod_divide; [lia|]; exists ((- q) / n)%Z; assert (W := Z.div_mod (- q) n ltac:(lia)); lia end).
  rewrite (ccf_mod ny nx f g (- rr) (- c) (- unwrap ny rr) (- unwrap nx c)) in Q2 by (auto; apply unwrap_mod; auto).
  apply Rcomplements.Rabs_le_between in Q1. apply Rcomplements.Rabs_le_between in Q2. lra.
Qed.
Print Assumptions C113_register_images.

Theorem C113_register_same_answer :
  forall A A' S eps has_fftw im1 im2 ret_err zeromean maxoff nthreads use_np ny nx dy dx,
  shape im1 = [ny; nx] -> shape im2 = [ny; nx] -> (0 < ny)%Z -> (0 < nx)%Z -> mo_ok maxoff ->
  within maxoff (centred ny dy) -> within maxoff (centred nx dx) ->
  accurate eps [ny; nx] A -> accurate eps [ny; nx] A' -> accurate_scalar eps (Z.to_nat (ny * nx)) S -> eps <= 1 / 2 ->
  let f := prep zeromean im1 ny nx in let g := prep zeromean im2 ny nx in
  (forall s t, ((s - dy) mod ny <> 0 \/ (t - dx) mod nx <> 0)%Z ->
     Rabs (ccf ny nx f g s t) + 2 * peak_error eps zeromean im1 im2 ny nx < Rabs (ccf ny nx f g dy dx)) ->
  register_images_rd A A' S im1 im2 ret_err zeromean maxoff = Ok (nums [IZR (centred nx dx); IZR (centred ny dy)] ++ err_out ret_err 1) /\
  register_images has_fftw im1 im2 1 false ret_err zeromean maxoff nthreads use_np = register_images_rd A A' S im1 im2 ret_err zeromean maxoff.
Proof.
  intros A A' S eps hf im1 im2 re zm mo nt np ny nx dy dx H1 H2 Hy Hx HM Wy Wx HA HA' HS He f g G.
  assert (D0 : 0 <= peak_error eps zm im1 im2 ny nx).
  { assert (e0 := proj1 HA). unfold peak_error. assert (P := pow_ge1 eps 11 e0). apply Rmult_le_pos; [|lra].
    apply Rmult_le_pos; apply sum2_nonneg; intros i j Hi Hj; refine (near_M _ _ _ _ (near_zero_mean eps _ S HS zm _ ny nx i j _ Hy Hx _ Hi Hj)); auto. }
  assert (E : register_images_rd A A' S im1 im2 re zm mo = Ok (nums [IZR (centred nx dx); IZR (centred ny dy)] ++ err_out re 1)).
  { destruct (C113_register_images A A' S eps im1 im2 re zm mo ny nx H1 H2 Hy Hx HM HA HA' HS He) as [ty [tx [E [Ry [Rx [_ [_ Mx]]]]]]].
    fold f g in Mx. specialize (Mx _ _ Wy Wx).
    assert (MD : forall n d, (0 < n)%Z -> ((centred n d - d) mod n = 0)%Z).
    { intros n d Hn. assert (M := centred_mod n d Hn). apply Z.mod_divide in M; [|lia]. apply Z.mod_divide; [lia|]. destruct M as [k M]. exists (- k)%Z. lia. }
    rewrite (ccf_mod ny nx _ _ (centred ny dy) (centred nx dx) dy dx) in Mx by auto.
    assert (D : ~ ((ty - dy) mod ny <> 0 \/ (tx - dx) mod nx <> 0)%Z) by (intros Q; specialize (G ty tx Q); lra).
    assert (SW : forall n a b, (0 < n)%Z -> ((a - b) mod n = 0 -> (b - a) mod n = 0)%Z).
    { intros n a b Hn M. apply Z.mod_divide in M; [|lia]. apply Z.mod_divide; [lia|]. destruct M as [k M]. exists (- k)%Z. lia. }
    rewrite E. rewrite (centred_unique ny dy ty Hy Ry), (centred_unique nx dx tx Hx Rx) by (apply SW; auto; lia). reflexivity. }
  split; [exact E|]. rewrite E. apply C51_unique_peak_is_returned; auto. intros s t Q. specialize (G s t Q). fold f g. lra.
Qed.
Print Assumptions C113_register_same_answer.
