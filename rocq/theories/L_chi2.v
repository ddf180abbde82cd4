(** Lemmas about chi2n_map *)
From Coq Require Import ZArith Lia List Reals Lra Bool.
From Coquelicot Require Import Complex.
From Verif Require Import Base NDim DFT Kernel Py M_fast_ffts M_shift M_scale M_zoom M_downsample M_convolve M_correlate Arg M_chi2
  Spec L_shift L_convolve Sum2 Spec2 L_correlate.
Import ListNotations.
Open Scope R_scope.

(** the error map actually used, and the pixels it excludes *)
Definition err_zero (err : errarg) (y x : Z) : bool :=
  match err with ErrArr e => if Req_EM_T (px e y x) 0 then true else false | _ => false end.
Definition sigma_of (err : errarg) (y x : Z) : R :=
  match err with ErrNone => 1 | ErrScalar s => s | ErrArr e => if err_zero err y x then 1 else px e y x end.
Definition used_image (zeromean : bool) (err : errarg) (a : arr num) (ny nx y x : Z) : R :=
  if err_zero err y x then 0 else prep zeromean a ny nx y x.
Definition err_ok (err : errarg) (ny nx : Z) : Prop :=
  match err with ErrNone => True | ErrScalar s => s <> 0 | ErrArr e => shape e = [ny; nx] end.
Definition size_ok (e : env) (allow_huge : bool) (ny nx : Z) : Prop := allow_huge = true \/ (16 * (ny * nx) <= e_gb e)%Z.

Lemma zero_mean_prep zm (a : arr num) ny nx y x : shape a = [ny; nx] -> (0 < ny)%Z -> (0 < nx)%Z ->
  (0 <= y < ny)%Z -> (0 <= x < nx)%Z -> nan0 (get (zero_mean zm a) [y; x]) = prep zm a ny nx y x.
Proof.
  intros Hs Hny Hnx Hy Hx. unfold zero_mean, prep. destruct zm.
  - cbn [amap get]. unfold valid_mean. rewrite Hs, !sum2_sumNR.
    replace (sum2 ny nx (fun i j => if isnan (get a [i; j]) then 0 else 1)) with (valid_count a ny nx).
    2:{ apply sum2_ext. intros i j Hi Hj. destruct (get a [i; j]); reflexivity. }
    destruct (Req_EM_T (valid_count a ny nx) 0) as [E|E].
    + assert (G := sum2_nonneg_0 ny nx (fun i j => match get a [i; j] with Fin _ => 1 | NaN => 0 end) ltac:(intros i j Hi Hj; cbv beta; destruct (get a [i; j]); lra) E y x Hy Hx). cbv beta in G.
      destruct (get a [y; x]); [lra|reflexivity].
    + destruct (get a [y; x]) as [r|]; [|reflexivity]. reflexivity.
  - destruct (get a [y; x]); reflexivity.
Qed.

Lemma err_zero_cases err y x : {err_zero err y x = true} + {err_zero err y x = false}.
Proof. destruct (err_zero err y x); auto. Qed.

Lemma sigma_nz err ny nx y x : err_ok err ny nx -> sigma_of err y x <> 0.
Proof.
  unfold err_ok, sigma_of, err_zero. destruct err as [|s|e]; intros H; try lra; auto.
  destruct (Req_EM_T (px e y x) 0); lra.
Qed.

Lemma mod_shift_rw n i c k : ((i - c + k) mod n = (i - (c - k)) mod n)%Z.
Proof. f_equal. lia. Qed.

Lemma prodZ_2 a b : prodZ [a; b] = (a * b)%Z.
Proof. apply prodZ2. Qed.

Lemma chi2n_map_ok e im1 im2 err nt zm np ra rd huge ny nx :
  shape im1 = [ny; nx] -> shape im2 = [ny; nx] -> (0 < ny)%Z -> (0 < nx)%Z -> err_ok err ny nx -> size_ok e huge ny nx ->
  (rd = true -> (ny * nx <> 2)%Z) ->
  exists chi2 t1 t2 t3, chi2n_map e im1 im2 err BWrap nt zm np ra rd huge = Ok (if ra then Chi2All chi2 t1 t2 t3 else Chi2Only chi2) /\
    shape chi2 = [ny; nx] /\ shape t2 = [ny; nx] /\
    t1 = sum2 ny nx (fun i j => (used_image zm err im2 ny nx i j / sigma_of err i j) ^ 2) /\
    (forall k l, (0 <= k < ny)%Z -> (0 <= l < nx)%Z ->
      let v := chi2_of ny nx (used_image zm err im1 ny nx) (used_image zm err im2 ny nx) (sigma_of err) ((ny - 1) / 2 - k) ((nx - 1) / 2 - l) in
      g2 t2 k l = -2 * sum2 ny nx (fun i j => used_image zm err im2 ny nx i j / (sigma_of err i j) ^ 2 *
           used_image zm err im1 ny nx ((i - ((ny - 1) / 2 - k)) mod ny) ((j - ((nx - 1) / 2 - l)) mod nx)) /\
      t1 + g2 t2 k l + match t3 with T3scalar r => r | T3array a => g2 a k l end = v /\
      g2 chi2 k l = if rd then v / (IZR (ny * nx) - 2) else v).
Proof.
  intros H1 H2 Hy Hx He Hh Hrd. unfold chi2n_map.
  rewrite H1, H2. destruct (list_eq_dec Z.eq_dec [ny; nx] [ny; nx]) as [_|C]; [|congruence]. cbn [negb].
  set (P1 := used_image zm err im1 ny nx). set (P2 := used_image zm err im2 ny nx). set (sg := sigma_of err).
  assert (Hcorr : forall f g, exists cc, correlate2d (e_fftw e) (e_gb e) (fin_arr [ny; nx] f) (fin_arr [ny; nx] g) BWrap nt np huge = Ok cc /\
     shape cc = [ny; nx] /\ forall k l, (0 <= k < ny)%Z -> (0 <= l < nx)%Z ->
       g2 cc k l = sum2 ny nx (fun i j => g [i; j] * f [(i - ((ny - 1) / 2 - k)) mod ny; (j - ((nx - 1) / 2 - l)) mod nx]%Z)).
  { intros f g. destruct (correlate2d_wrap (e_fftw e) (e_gb e) (fin_arr [ny; nx] f) (fin_arr [ny; nx] g) nt np huge ny nx) as [cc [A [B D]]]; auto.
    exists cc. split; [exact A|]. split; [exact B|]. intros k l Hk Hl. rewrite D by auto. apply sum2_ext. intros i j Hi Hj.
    unfold g2, fin_arr. cbn [get nan0]. rewrite !mod_shift_rw. reflexivity. }
  (* the common tail *)
  assert (Hfin : forall (f1 f2 er : list Z -> R) t3,
    (forall y x, (0 <= y < ny)%Z -> (0 <= x < nx)%Z -> f1 [y; x] = P1 y x /\ f2 [y; x] = P2 y x /\ er [y; x] = sg y x) ->
    (forall k l, (0 <= k < ny)%Z -> (0 <= l < nx)%Z -> match t3 with T3scalar r => r | T3array a => g2 a k l end =
       sum2 ny nx (fun i j => (P1 ((i - ((ny - 1) / 2 - k)) mod ny)%Z ((j - ((nx - 1) / 2 - l)) mod nx)%Z) ^ 2 / (sg i j) ^ 2)) ->
    exists chi2 t1 t2 t3', 
      (let! cc := correlate2d (e_fftw e) (e_gb e) (fin_arr [ny; nx] f1) (fin_arr [ny; nx] (fun i => f2 i / (er i) ^ 2)) BWrap nt np huge in
       let term2 := amap (fun x => (-2) * x) cc in
       let! chi2 := if rd then (if (prodZ [ny; nx] =? 2)%Z then Raise Unmodelled else
            Ok (amap (fun x => x / (IZR (prodZ [ny; nx]) - 2)) (Arr [ny; nx] (fun i => sumNR [ny; nx] (fun i => (f2 i) ^ 2 / (er i) ^ 2) + get term2 i + match t3 with T3scalar r => r | T3array a => get a i end))))
                 else Ok (Arr [ny; nx] (fun i => sumNR [ny; nx] (fun i => (f2 i) ^ 2 / (er i) ^ 2) + get term2 i + match t3 with T3scalar r => r | T3array a => get a i end)) in
       Ok (if ra then Chi2All chi2 (sumNR [ny; nx] (fun i => (f2 i) ^ 2 / (er i) ^ 2)) term2 t3 else Chi2Only chi2)) =
       Ok (if ra then Chi2All chi2 t1 t2 t3' else Chi2Only chi2) /\
    shape chi2 = [ny; nx] /\ shape t2 = [ny; nx] /\
    t1 = sum2 ny nx (fun i j => (P2 i j / sg i j) ^ 2) /\
    (forall k l, (0 <= k < ny)%Z -> (0 <= l < nx)%Z ->
      let v := chi2_of ny nx P1 P2 sg ((ny - 1) / 2 - k) ((nx - 1) / 2 - l) in
      g2 t2 k l = -2 * sum2 ny nx (fun i j => P2 i j / (sg i j) ^ 2 *
           P1 ((i - ((ny - 1) / 2 - k)) mod ny)%Z ((j - ((nx - 1) / 2 - l)) mod nx)%Z) /\
      t1 + g2 t2 k l + match t3' with T3scalar r => r | T3array a => g2 a k l end = v /\
      g2 chi2 k l = if rd then v / (IZR (ny * nx) - 2) else v)).
  { intros f1 f2 er t3 Hf Ht3. destruct (Hcorr f1 (fun i => f2 i / (er i) ^ 2)) as [cc [E1 [E2 E3]]]. rewrite E1. cbn [bind].
    rewrite prodZ_2.
    set (t1 := sumNR [ny; nx] (fun i => (f2 i) ^ 2 / (er i) ^ 2)).
    assert (Hsg : forall i j, sg i j <> 0) by (intros; apply (sigma_nz err ny nx); auto).
    assert (Et1 : t1 = sum2 ny nx (fun i j => (P2 i j / sg i j) ^ 2)).
    { unfold t1. rewrite sum2_sumNR. apply sum2_ext. intros i j Hi Hj. destruct (Hf i j Hi Hj) as [_ [-> ->]]. field. apply Hsg. }
    set (chi0 := Arr [ny; nx] (fun i => t1 + get (amap (fun x => (-2) * x) cc) i + match t3 with T3scalar r => r | T3array a => get a i end)).
    assert (Eret : exists chi2, (if rd then (if (ny * nx =? 2)%Z then Raise Unmodelled else Ok (amap (fun x => x / (IZR (ny * nx) - 2)) chi0)) else Ok chi0) = Ok chi2
      /\ chi2 = if rd then amap (fun x => x / (IZR (ny * nx) - 2)) chi0 else chi0).
    { destruct rd; [|eauto]. destruct (Z.eqb_spec (ny * nx) 2); [exfalso; apply Hrd; auto|eauto]. }
    destruct Eret as [chi2 [Er Ec]]. rewrite Er. cbn [bind]. clear Er.
    exists chi2, t1, (amap (fun x => (-2) * x) cc), t3. split; [reflexivity|]. split; [subst chi2; destruct rd; reflexivity|].
    split; [exact E2|]. split; [exact Et1|]. intros k l Hk Hl.
    set (v := chi2_of ny nx P1 P2 sg ((ny - 1) / 2 - k) ((nx - 1) / 2 - l)).
    assert (Et2 : g2 (amap (fun x => (-2) * x) cc) k l = -2 * sum2 ny nx (fun i j => P2 i j / (sg i j) ^ 2 *
           P1 ((i - ((ny - 1) / 2 - k)) mod ny)%Z ((j - ((nx - 1) / 2 - l)) mod nx)%Z)).
    { unfold g2. cbn [amap get]. fold (g2 cc k l). rewrite E3 by auto. f_equal. apply sum2_ext. intros i j Hi Hj.
      destruct (Hf i j Hi Hj) as [_ [-> ->]]. destruct (Hf ((i - ((ny - 1) / 2 - k)) mod ny)%Z ((j - ((nx - 1) / 2 - l)) mod nx)%Z) as [-> _]; auto;
      apply Z.mod_pos_bound; auto. }
    assert (Ev : t1 + g2 (amap (fun x => (-2) * x) cc) k l + match t3 with T3scalar r => r | T3array a => g2 a k l end = v).
    { rewrite Et1, Et2, Ht3 by auto. unfold v, chi2_of. change (pixel_sum ny nx) with (sum2 ny nx).
      rewrite <- sum2_scal, <- !sum2_plus. apply sum2_ext. intros i j Hi Hj. field. apply Hsg. }
    split; [exact Et2|]. split; [exact Ev|].
    assert (Eg : g2 chi0 k l = v). { rewrite <- Ev. unfold g2, chi0. cbn [get]. destruct t3; reflexivity. }
    subst chi2. destruct rd; [|exact Eg]. rewrite <- Eg. reflexivity. }
  assert (Hp1 : forall y x, (0 <= y < ny)%Z -> (0 <= x < nx)%Z -> nan0 (get (zero_mean zm im1) [y; x]) = prep zm im1 ny nx y x)
    by (intros; apply zero_mean_prep; auto).
  assert (Hp2 : forall y x, (0 <= y < ny)%Z -> (0 <= x < nx)%Z -> nan0 (get (zero_mean zm im2) [y; x]) = prep zm im2 ny nx y x)
    by (intros; apply zero_mean_prep; auto).
  assert (Hscal : forall s, s <> 0 -> forall f : list Z -> R, (forall y x, (0 <= y < ny)%Z -> (0 <= x < nx)%Z -> f [y; x] = P1 y x) ->
    (forall y x, sg y x = s) -> forall k l,
    sumNR [ny; nx] (fun i => (f i) ^ 2 / s ^ 2) =
    sum2 ny nx (fun i j => (P1 ((i - ((ny - 1) / 2 - k)) mod ny)%Z ((j - ((nx - 1) / 2 - l)) mod nx)%Z) ^ 2 / (sg i j) ^ 2)).
  { intros s Hs f Hf Hsg k l. rewrite sum2_sumNR.
    rewrite (sum2_ext ny nx _ (fun i j => P1 i j ^ 2 / s ^ 2)) by (intros; rewrite Hf by auto; reflexivity).
    rewrite <- (sum2_shift ny nx (fun i j => P1 i j ^ 2 / s ^ 2) (- ((ny - 1) / 2 - k)) (- ((nx - 1) / 2 - l))) by auto.
    apply sum2_ext. intros i j Hi Hj. rewrite Hsg. reflexivity. }
  destruct err as [|s|er].
  - apply (Hfin (fun i => nan0 (get (zero_mean zm im1) i)) (fun i => nan0 (get (zero_mean zm im2) i)) (fun _ => 1)
      (T3scalar (sumNR [ny; nx] (fun i => nan0 (get (zero_mean zm im1) i) ^ 2 / 1 ^ 2)))).
    + intros y x HY HX. rewrite Hp1, Hp2 by auto. repeat split.
    + intros k l Hk Hl. apply (Hscal 1 R1_neq_R0); auto.
  - cbn [err_ok] in He. destruct (Req_EM_T s 0); [contradiction|].
    apply (Hfin (fun i => nan0 (get (zero_mean zm im1) i)) (fun i => nan0 (get (zero_mean zm im2) i)) (fun _ => s)
      (T3scalar (sumNR [ny; nx] (fun i => nan0 (get (zero_mean zm im1) i) ^ 2 / s ^ 2)))).
    + intros y x HY HX. rewrite Hp1, Hp2 by auto. repeat split.
    + intros k l Hk Hl. apply (Hscal s); auto.
  - cbn [err_ok] in He. rewrite He. destruct (list_eq_dec Z.eq_dec [ny; nx] [ny; nx]) as [_|C]; [|congruence]. cbn [negb].
    set (bad := fun i => if Req_EM_T (nan0 (get er i)) 0 then true else false).
    assert (Hbad : forall y x, bad [y; x] = err_zero (ErrArr er) y x) by reflexivity.
    destruct (Hcorr (fun i => (if bad i then 0 else nan0 (get (zero_mean zm im1) i)) ^ 2) (fun i => 1 / (if bad i then 1 else nan0 (get er i)) ^ 2))
      as [c3 [E1 [E2 E3]]].
    cbv zeta; unfold bad in E1; rewrite E1; fold bad in E1. cbn [bind].
    apply (Hfin (fun i => if bad i then 0 else nan0 (get (zero_mean zm im1) i)) (fun i => if bad i then 0 else nan0 (get (zero_mean zm im2) i))
      (fun i => if bad i then 1 else nan0 (get er i)) (T3array c3)).
    + intros y x HY HX. cbv beta. rewrite Hp1, Hp2 by auto. unfold P1, P2, sg, used_image, sigma_of. rewrite Hbad.
      destruct (err_zero (ErrArr er) y x); repeat split.
    + intros k l Hk Hl. rewrite E3 by auto. apply sum2_ext. intros i j Hi Hj. cbv beta. rewrite !Hbad.
      rewrite Hp1 by (apply Z.mod_pos_bound; auto). unfold P1, sg, used_image, sigma_of.
      destruct (err_zero (ErrArr er) i j) eqn:Ez; [rewrite Rmult_comm; unfold Rdiv; rewrite Rmult_1_l; reflexivity|].
      change (nan0 (get er [i; j])) with (px er i j). field. unfold err_zero in Ez. destruct (Req_EM_T (px er i j) 0); [discriminate|auto].
Qed.
