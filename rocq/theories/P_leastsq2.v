(** C88: chi2_shift_leastsq with an error map, and with use_fft=False (scipy's map_coordinates) *)
From Coq Require Import ZArith Lia List Reals Lra Bool FunctionalExtensionality.
From Coquelicot Require Import Complex.
From Verif Require Import Base NDim DFT Kernel Num Py M_fast_ffts M_shift M_convolve M_correlate M_chi2 M_register M_xcorr M_heap M_leastsq
  Spec Spec2 Spec8 L_shift P_shift Sum2 L_chi2shift L_fshift L_heap P_leastsq P_agree.
Import ListNotations.
Open Scope R_scope.

(** when im2 has no NaN the error argument reaches the minimiser as the caller passed it *)
Lemma leastsq_reduce_clean m l1 l2 err a1 a2 hf lm sp mc fit mo re gx gy uf io :
  holds m l1 (BReal a1) -> holds m l2 (BReal a2) -> shape a1 = shape a2 -> (forall i, inb (shape a2) i -> get a2 i <> NaN) ->
  exists k1 m1 b1,
    chi2_shift_leastsq_mem hf lm sp mc fit l1 l2 err mo re gx gy uf io m = leastsq_tail hf lm sp mc fit k1 l2 err mo re gx gy uf io m1 /\
    holds m1 k1 (BReal b1) /\ holds m1 l2 (BReal a2) /\ shape b1 = shape a1 /\ (forall i, nan0 (get b1 i) = nan0 (get a1 i)) /\ unchanged m m1.
Proof.
  intros H1 H2 Es Hn. unfold chi2_shift_leastsq_mem.
  rewrite (mbind_ok _ _ _ _ _ (loadR_ok _ _ _ H1)), (mbind_ok _ _ _ _ _ (loadR_ok _ _ _ H2)). unfold shapes_differ.
  destruct (list_eq_dec Z.eq_dec (shape a1) (shape a2)) as [_|NE]; [|contradiction]. cbn [negb].
  destruct (replace_nan_step m l1 a1 H1) as [k1 [m1 [b1 [E1 [U1 [Q1 [S1 [V1 _]]]]]]]]. rewrite (mbind_ok _ _ _ _ _ E1).
  assert (H2' := U1 _ _ H2). rewrite (mbind_ok _ _ _ _ _ (loadR_ok _ _ _ H2')).
  assert (AN : any isnan a2 = false).
  { destruct (any isnan a2) eqn:E; [|reflexivity]. unfold any in E. apply existsN_spec in E. destruct E as [i [Hi E]]. exfalso. apply (Hn i Hi). destruct (get a2 i); [discriminate|reflexivity]. }
  rewrite AN, (mbind_ok (ret l2) _ m1 l2 m1 eq_refl). exists k1, m1, b1. split; [reflexivity|]. repeat (split; [now auto|]). exact U1.
Qed.

Definition no_zero (ny nx : Z) (f : Z -> Z -> R) : Prop := forall i j, (0 <= i < ny)%Z -> (0 <= j < nx)%Z -> f i j <> 0.
Lemma any_zero ny nx (es : arr R) f : shape es = [ny; nx] -> (forall i j, (0 <= i < ny)%Z -> (0 <= j < nx)%Z -> get es [i; j] = f i j) ->
  (any (fun x => if Req_EM_T x 0 then true else false) es = false <-> no_zero ny nx f).
Proof.
  intros S V. split.
  - intros E i j Hi Hj Z. assert (T : any (fun x => if Req_EM_T x 0 then true else false) es = true); [|congruence].
    unfold any. apply existsN_spec. exists [i; j]. rewrite S. split; [repeat split; lia|]. rewrite V, Z by auto. destruct (Req_EM_T 0 0); [reflexivity|congruence].
  - intros N. destruct (any _ es) eqn:E; [|reflexivity]. exfalso. unfold any in E. apply existsN_spec in E. destruct E as [i [Hi E]]. rewrite S in Hi.
    apply inb2' in Hi. destruct Hi as [p [q [-> [Hp Hq]]]]. rewrite V in E by auto. destruct (Req_EM_T (f p q) 0) as [Z|]; [apply (N p q Hp Hq Z)|discriminate].
Qed.
Lemma shift_num hf (a : arr num) ny nx ysh xsh : shape a = [ny; nx] -> (0 < ny)%Z -> (0 < nx)%Z ->
  exists x, shiftnd hf (of_num a) [ysh; xsh] 0 1 false false true = Ok (RealArr x) /\ shape x = [ny; nx] /\
    forall i j, (0 <= i < ny)%Z -> (0 <= j < nx)%Z -> get x [i; j] = fshift ny nx (px a) ysh xsh i j.
Proof.
  intros Sa Hy Hx. assert (Hp : pos_shape (shape (of_num a))) by (cbn [of_num amap shape]; rewrite Sa; repeat constructor; auto).
  destruct (shiftnd_ok hf (of_num a) [ysh; xsh] 0 1 false false true Hp) as [r [E [S G]]]. rewrite E. eexists. split; [reflexivity|].
  split; [cbn [amap shape]; rewrite S; exact Sa|]. intros i j Hi Hj. cbn [get amap]. rewrite G by (cbn [of_num amap shape]; rewrite Sa; repeat split; lia).
  cbn [of_num amap shape]. rewrite Sa, fit_offset_id by reflexivity. rewrite fshift_shifted by auto.
  apply (f_equal Re). apply shifted_ext. intros z Hz. apply inb2' in Hz. destruct Hz as [p [q [-> [Hp' Hq]]]]. cbn [img2]. unfold of_num, amap, cnan0, px. cbn [get fst snd nan0]. destruct (get a [p; q]); reflexivity.
Qed.
Lemma minimize_ext o1 o2 f : (forall x y, o1 x y = o2 x y) -> minimize o1 f = minimize o2 f.
Proof. intros H. induction f as [x y ex ey|x y next IH]; [reflexivity|]. cbn [minimize]. rewrite H. destruct (o2 x y); auto. Qed.

(** *** with use_fft=True and an error map: the residual is divided by the error map Fourier-shifted along with im2, not by the error of the pixel
    it is compared with (the result is not modelled at shifts where the shifted map vanishes in some pixel: division by zero) *)
Theorem C88_error_map_is_shifted_too :
  forall m l1 l2 le a1 a2 e ny nx has_fftw has_scipy mc fit rerr gx gy,
  holds m l1 (BReal a1) -> holds m l2 (BReal a2) -> holds m le (BReal e) ->
  shape a1 = [ny; nx] -> shape a2 = [ny; nx] -> shape e = [ny; nx] -> (0 < ny)%Z -> (0 < nx)%Z ->
  (forall i, inb (shape a2) i -> get a2 i <> NaN) ->
  exists objective : R -> R -> res (arr R),
    (forall x y, no_zero ny nx (fshift ny nx (px e) (- y) (- x)) ->
       exists r, objective x y = Ok r /\ shape r = [ny; nx] /\ forall i j, (0 <= i < ny)%Z -> (0 <= j < nx)%Z ->
         get r [i; j] = Rabs (centred_image a1 ny nx i j - fshift ny nx (centred_image a2 ny nx) (- y) (- x) i j) / sqrt (IZR ny * IZR nx)
                        / fshift ny nx (px e) (- y) (- x) i j) /\
    (forall x y, ~ no_zero ny nx (fshift ny nx (px e) (- y) (- x)) -> objective x y = Raise Unmodelled) /\
    fst (chi2_shift_leastsq_mem has_fftw true has_scipy mc fit l1 l2 (ELArr le) None rerr gx gy true false m) =
      match minimize objective (fit gx gy None) with
      | Ok (x, y, ex, ey) => Ok (if rerr then [Some x; Some y; ex; ey] else [Some x; Some y])
      | Raise e => Raise e
      end.
Proof.
  intros m l1 l2 le a1 a2 e ny nx hf sp mc fit re gx gy H1 H2 He S1 S2 Se Hy Hx Hn.
  destruct (leastsq_reduce_clean m l1 l2 (ELArr le) a1 a2 hf true sp mc fit None re gx gy true false H1 H2 ltac:(congruence) Hn)
    as [k1 [m1 [b1 [E [Q1 [Q2 [T1 [V1 U]]]]]]]]. rewrite E. unfold leastsq_tail.
  rewrite (mbind_ok _ _ _ _ _ (loadR_ok _ _ _ Q1)), (mbind_ok _ _ _ _ _ (loadR_ok _ _ _ Q2)). cbv zeta. rewrite T1, S1. cbn [negb andb].
  set (i1 := minus_mean b1). set (i2 := minus_mean a2). assert (He1 := U _ _ He).
  assert (L : load_err (ELArr le) m1 = (Ok (EVArr e), m1)) by (cbn [load_err]; unfold mbind, load; rewrite He1; reflexivity).
  rewrite (mbind_ok _ _ _ _ _ L).
  exists (residuals hf mc true None false i1 i2 (EVArr e)).
  assert (P2 : pos_shape (shape i2)) by (unfold i2; cbn [shape minus_mean]; rewrite S2; repeat constructor; auto).
  assert (Si : shape i1 = [ny; nx]) by (unfold i1; cbn [shape minus_mean]; congruence).
  assert (Si2 : shape i2 = [ny; nx]) by (unfold i2; cbn [shape minus_mean]; congruence).
  assert (R : forall x y, exists s es, get s = get s /\
     (forall i j, (0 <= i < ny)%Z -> (0 <= j < nx)%Z -> get s [i; j] = fshift ny nx (centred_image a2 ny nx) (- y) (- x) i j) /\
     shape es = [ny; nx] /\ (forall i j, (0 <= i < ny)%Z -> (0 <= j < nx)%Z -> get es [i; j] = fshift ny nx (px e) (- y) (- x) i j) /\
     residuals hf mc true None false i1 i2 (EVArr e) x y =
       if any (fun x => if Req_EM_T x 0 then true else false) es then Raise Unmodelled
       else Ok (Arr [ny; nx] (fun i => Rabs (get i1 i - get s i) / sqrt (IZR (prodZ [ny; nx])) / get es i))).
  { intros x y. destruct (shift_real hf i2 (- y) (- x) P2) as [s [Es [Ss Gs]]]. destruct (shift_num hf e ny nx (- y) (- x) Se Hy Hx) as [es [Ee [See Ge]]].
    exists s, es. split; [reflexivity|]. split.
    { intros i j Hi Hj. rewrite Gs by (rewrite Si2; repeat split; lia). rewrite Si2. rewrite fit_offset_id by reflexivity. rewrite fshift_shifted by auto. f_equal.
      apply shifted_ext. intros z Hz. apply inb2' in Hz. destruct Hz as [p [q [-> [Hp Hq]]]]. cbn [img2]. f_equal. apply minus_mean_px; auto. }
    split; [exact See|]. split; [exact Ge|]. unfold residuals. cbv zeta. rewrite Es. cbn [bind]. rewrite Si, Se. destruct (list_eq_dec Z.eq_dec [ny; nx] [ny; nx]); [|congruence]. cbn [negb].
    rewrite andb_false_r. rewrite Ee. cbn [bind]. reflexivity. }
  assert (Px : forall i j, get i1 [i; j] = centred_image a1 ny nx i j) by (intros; unfold i1; apply minus_mean_px; auto; congruence).
  split; [|split].
  - intros x y N. destruct (R x y) as [s [es [_ [Gs [See [Ge Er]]]]]]. apply (any_zero ny nx es _ See Ge) in N. rewrite N in Er. eexists. split; [exact Er|]. split; [reflexivity|].
    intros i j Hi Hj. cbn [get]. rewrite Px, Gs, Ge by auto. f_equal. f_equal. cbn [prodZ fold_right]. rewrite <- mult_IZR. do 2 f_equal. lia.
  - intros x y N. destruct (R x y) as [s [es [_ [Gs [See [Ge Er]]]]]]. rewrite Er. destruct (any _ es) eqn:A; [reflexivity|]. exfalso. apply N. apply (any_zero ny nx es _ See Ge). exact A.
  - unfold mbind, lift. destruct (minimize _ _) as [[[[x y] ex] ey]|ex]; reflexivity.
Qed.
Print Assumptions C88_error_map_is_shifted_too.

(** so a constant error map acts as the scalar *)
Theorem C88_constant_error_map :
  forall ny nx e s y x i j, (0 < ny)%Z -> (0 < nx)%Z -> (forall p q, (0 <= p < ny)%Z -> (0 <= q < nx)%Z -> get e [p; q] = Fin s) ->
  fshift ny nx (px e) y x i j = s.
Proof.
  intros ny nx e s y x i j Hy Hx H. rewrite (fshift_ext ny nx (px e) (fun p q => px e p q - (- s) - s)) by (intros; ring).
  rewrite (fshift_const ny nx (fun p q => px e p q - - s) s) by auto.
  rewrite (fshift_const ny nx (px e) (- s)) by auto.
  assert (Z : fshift ny nx (px e) y x i j = s); [|rewrite Z; ring].
  assert (Q := fshift_const ny nx (fun _ _ => 0) (- s) y x i j Hy Hx). rewrite (fshift_ext ny nx (px e) (fun _ _ => 0 - - s)) by (intros p q Hp Hq; unfold px; rewrite H by auto; ring).
  rewrite Q. assert (Z0 : fshift ny nx (fun _ _ => 0) y x i j = 0); [|rewrite Z0; ring].
  unfold fshift, trig_interpR. rewrite (sumNR_ext _ _ (fun _ => 0)); [apply sumNR_const0; reflexivity|]. intros k _. destruct k as [|? [|? [|? ?]]]; cbn [img2]; ring.
Qed.
Print Assumptions C88_constant_error_map.

(** *** with use_fft=False: im2 is sampled by map_coordinates at (row + y, column + x) *)
Definition err_value (e : errloc) : R := match e with ELScalar s => s | _ => 1 end.
Theorem C88_map_coordinates_objective :
  forall m l1 l2 err a1 a2 ny nx has_fftw mc fit rerr gx gy,
  holds m l1 (BReal a1) -> holds m l2 (BReal a2) -> shape a1 = [ny; nx] -> shape a2 = [ny; nx] -> (0 < ny)%Z -> (0 < nx)%Z ->
  (err = ELNone \/ exists s, err = ELScalar s /\ s <> 0) ->
  exists (objective : R -> R -> arr R) (i2 : arr R),
    (shape i2 = [ny; nx] /\ forall i j, (0 <= i < ny)%Z -> (0 <= j < nx)%Z -> get i2 [i; j] = centred_image a2 ny nx i j) /\
    (forall x y, shape (objective x y) = [ny; nx] /\ forall i j, (0 <= i < ny)%Z -> (0 <= j < nx)%Z ->
       get (objective x y) [i; j] = Rabs (centred_image a1 ny nx i j - get (mc i2 y x) [i; j]) / sqrt (IZR ny * IZR nx) / err_value err) /\
    fst (chi2_shift_leastsq_mem has_fftw true true mc fit l1 l2 err None rerr gx gy false false m) =
      match minimize (fun x y => Ok (objective x y)) (fit gx gy None) with
      | Ok (x, y, ex, ey) => Ok (if rerr then [Some x; Some y; ex; ey] else [Some x; Some y])
      | Raise e => Raise e
      end.
Proof.
  intros m l1 l2 err a1 a2 ny nx hf mc fit re gx gy H1 H2 S1 S2 Hy Hx He.
  assert (EF : err_fits m err (shape a2) /\ err <> ELArr l1 /\ err <> ELArr l2) by (destruct He as [->|[s [-> N]]]; repeat split; auto; discriminate).
  destruct EF as [EF [N1 N2]].
  destruct (leastsq_reduce m l1 l2 err a1 a2 hf true true mc fit None re gx gy false false H1 H2 ltac:(congruence) EF N1 N2)
    as [k1 [k2 [m4 [b1 [b2 [E [Q1 [Q2 [T1 [T2 [V1 [V2 X]]]]]]]]]]]]. rewrite E. unfold leastsq_tail.
  rewrite (mbind_ok _ _ _ _ _ (loadR_ok _ _ _ Q1)), (mbind_ok _ _ _ _ _ (loadR_ok _ _ _ Q2)). cbv zeta. rewrite T1, S1. cbn [negb andb].
  set (i1 := minus_mean b1). set (i2 := minus_mean b2).
  assert (Si : shape i1 = [ny; nx]) by (unfold i1; cbn [shape minus_mean]; congruence).
  pose (obj := fun x y => Arr [ny; nx] (fun i => Rabs (get i1 i - get (mc i2 y x) i) / sqrt (IZR (prodZ [ny; nx])) / err_value err)).
  exists obj, i2. split; [split; [unfold i2; cbn [shape minus_mean]; congruence|intros; unfold i2; apply minus_mean_px; auto; congruence]|]. split.
  - intros x y. split; [reflexivity|]. intros i j Hi Hj. unfold obj. cbn [get]. unfold i1. rewrite (minus_mean_px b1 a1 ny nx) by (auto; congruence).
    f_equal. f_equal. cbn [prodZ fold_right]. rewrite <- mult_IZR. do 2 f_equal. lia.
  - assert (L : exists ev, load_err err m4 = (Ok ev, m4) /\ (ev = EVNone /\ err = ELNone \/ exists s, ev = EVScalar s /\ err = ELScalar s /\ s <> 0)).
    { destruct He as [->|[s [-> N]]]; eexists; (split; [reflexivity|]); eauto. }
    destruct L as [ev [L Lv]]. rewrite (mbind_ok _ _ _ _ _ L).
    assert (R : forall x y, residuals hf mc false None false i1 i2 ev x y = Ok (obj x y)).
    { intros x y. unfold residuals, obj. cbv zeta. cbn [bind]. destruct Lv as [[-> ->]|[s [-> [-> N]]]].
      - cbn [err_value]. rewrite Si. do 2 f_equal. apply functional_extensionality. intros i. symmetry. apply (fun z : R => ltac:(field) : z / 1 = z).
      - destruct (Req_EM_T s 0); [contradiction|]. cbn [err_value]. unfold amap. cbn [shape get]. rewrite Si. reflexivity. }
    unfold mbind, lift. rewrite (minimize_ext _ (fun x y => Ok (obj x y)) _ R). destruct (minimize _ _) as [[[[x y] ex] ey]|e]; reflexivity.
Qed.
Print Assumptions C88_map_coordinates_objective.

(** any interpolation that reproduces the samples at pixel positions inside the image fits a rolled image at the same (dx, dy) as the other
    methods, in the pixels whose partner is inside *)
Theorem C88_map_coordinates_sign :
  forall (mc : arr R -> R -> R -> arr R) im1 im2 ny nx dy dx i2 i j, is_roll im1 im2 ny nx dy dx -> (0 < ny)%Z -> (0 < nx)%Z ->
  (forall (img : arr R) (y x p q : Z), shape img = [ny; nx] -> (0 <= p < ny)%Z -> (0 <= q < nx)%Z -> (0 <= p + y < ny)%Z -> (0 <= q + x < nx)%Z ->
     get (mc img (IZR y) (IZR x)) [p; q] = get img [p + y; q + x]%Z) ->
  shape i2 = [ny; nx] -> (forall p q, (0 <= p < ny)%Z -> (0 <= q < nx)%Z -> get i2 [p; q] = centred_image im2 ny nx p q) ->
  (0 <= i < ny)%Z -> (0 <= j < nx)%Z -> (0 <= i + dy < ny)%Z -> (0 <= j + dx < nx)%Z ->
  Rabs (centred_image im1 ny nx i j - get (mc i2 (IZR dy) (IZR dx)) [i; j]) = 0.
Proof.
  intros mc im1 im2 ny nx dy dx i2 i j HR Hy Hx Hmc S2 G2 Hi Hj Hi' Hj'. rewrite Hmc, G2 by auto. rewrite (centred_roll im1 im2 ny nx dy dx) by auto.
  replace (i + dy - dy)%Z with i by lia. replace (j + dx - dx)%Z with j by lia. rewrite !Z.mod_small by auto. rewrite Rminus_diag_eq by reflexivity. apply Rabs_R0.
Qed.
Print Assumptions C88_map_coordinates_sign.

(** *** C78: the fit, told without the model's loop *)
(** [lmfit_run obj s r]: the strategy s, given the residual obj x y each time it asks for (x, y), stops with r *)
Inductive lmfit_run (obj : R -> R -> arr R) : minimizer -> R * R * option R * option R -> Prop :=
| run_stop x y ex ey : lmfit_run obj (Stop x y ex ey) (x, y, ex, ey)
| run_try x y next r : lmfit_run obj (next (obj x y)) r -> lmfit_run obj (Try x y next) r.
Lemma minimize_run obj s : exists r, lmfit_run obj s r /\ minimize (fun x y => Ok (obj x y)) s = Ok r.
Proof.
  induction s as [x y ex ey|x y next IH]; [eexists; split; [apply run_stop|reflexivity]|].
  destruct (IH (obj x y)) as [r [A B]]. exists r. split; [apply run_try; exact A|exact B].
Qed.
Theorem C78_returns_what_lmfit_finds :
  forall m l1 l2 err a1 a2 ny nx has_fftw has_scipy mc fit (rerr : bool) gx gy,
  holds m l1 (BReal a1) -> holds m l2 (BReal a2) -> shape a1 = [ny; nx] -> shape a2 = [ny; nx] -> (0 < ny)%Z -> (0 < nx)%Z ->
  (err = ELNone \/ exists s, err = ELScalar s /\ s <> 0) ->
  exists (objective : R -> R -> arr R) x y ex ey,
    (forall x y, shape (objective x y) = [ny; nx] /\ forall i j, (0 <= i < ny)%Z -> (0 <= j < nx)%Z ->
       get (objective x y) [i; j] =
       Rabs (centred_image a1 ny nx i j - fshift ny nx (centred_image a2 ny nx) (- y) (- x) i j) / sqrt (IZR ny * IZR nx) / P_leastsq.sigma_of err) /\
    lmfit_run objective (fit gx gy None) (x, y, ex, ey) /\
    fst (chi2_shift_leastsq_mem has_fftw true has_scipy mc fit l1 l2 err None rerr gx gy true false m) =
      Ok (if rerr then [Some x; Some y; ex; ey] else [Some x; Some y]).
Proof.
  intros m l1 l2 err a1 a2 ny nx hf sp mc fit re gx gy H1 H2 S1 S2 Hy Hx He.
  destruct (C78_objective m l1 l2 err a1 a2 ny nx hf sp mc fit re gx gy H1 H2 S1 S2 Hy Hx He) as [obj [A B]].
  destruct (minimize_run obj (fit gx gy None)) as [[[[x y] ex] ey] [R1 R2]].
  exists obj, x, y, ex, ey. split; [exact A|]. split; [exact R1|]. rewrite B, R2. reflexivity.
Qed.
Print Assumptions C78_returns_what_lmfit_finds.

Example C88_nonvacuous :
  let e := mk2 3 4 (fun _ _ => Fin 2) in let a := mk2 3 4 (fun y x => Fin (IZR (y + 2 * x * x))) in
  let m := [BReal a; BReal e] in holds m 0%nat (BReal a) /\ holds m 1%nat (BReal e) /\ (forall i, inb (shape a) i -> get a i <> NaN) /\
  forall x y, no_zero 3 4 (fshift 3 4 (px e) (- y) (- x)).
Proof.
  intros e a m. repeat split; try reflexivity.
  - intros [|p [|q [|? ?]]] H; cbn in H; try tauto. cbn. discriminate.
  - intros x y i j Hi Hj. rewrite (C88_constant_error_map 3 4 e 2) by (try lia; intros; reflexivity). lra.
Qed.
