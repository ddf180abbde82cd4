(** C69 (exception), C77, C78: chi2_shift_leastsq *)
From Coq Require Import ZArith Lia List Reals Lra Bool FunctionalExtensionality.
From Coquelicot Require Import Complex.
From Verif Require Import Base NDim DFT Kernel Num Py M_fast_ffts M_shift M_convolve M_correlate M_chi2 M_register M_xcorr M_heap M_leastsq
  Spec Spec2 Spec8 L_shift P_shift Sum2 L_chi2shift L_fshift L_heap.
Import ListNotations.
Open Scope R_scope.

Definition leastsq_tail (hf lm sp : bool) mc (fit : R -> R -> option Z -> minimizer) (im1 im2 : loc) (err : errloc) (maxoff : option Z) (re : bool) (gx gy : R) (uf io : bool) : M (list (option R)) :=
  do! a1 := loadR im1 in
  do! a2 := loadR im2 in
  let i1 := minus_mean a1 in
  let i2 := minus_mean a2 in
  match shape a1 with
  | [_; _] =>
    if negb lm then raise ImportError else
    if negb uf && negb sp then raise ImportError else
    do! ev := load_err err in
    do! r := lift (minimize (residuals hf mc uf maxoff io i1 i2 ev) (fit gx gy maxoff)) in
    let '(x, y, ex, ey) := r in
    ret (if re then [Some x; Some y; ex; ey] else [Some x; Some y])
  | _ => raise ValueError
  end.
(** a computation that only reads *)
Definition reads_only {A} (c : M A) : Prop := forall m, snd (c m) = m.
Lemma ro_bind {A B} (c : M A) (f : A -> M B) : reads_only c -> (forall x, reads_only (f x)) -> reads_only (mbind c f).
Proof. intros Hc Hf m. unfold mbind. specialize (Hc m). destruct (c m) as [[x|e] m']; cbn in Hc; subst m'; [apply Hf|reflexivity]. Qed.
Lemma ro_ret {A} (x : A) : reads_only (ret x).  Proof. intros m; reflexivity. Qed.
Lemma ro_raise {A} e : reads_only (@raise A e).  Proof. intros m; reflexivity. Qed.
Lemma ro_lift {A} (r : res A) : reads_only (lift r).  Proof. intros m; reflexivity. Qed.
Lemma ro_load l : reads_only (load l).  Proof. intros m; reflexivity. Qed.
Lemma ro_loadR l : reads_only (loadR l).
Proof. apply ro_bind; [apply ro_load|]. intros [a|a|a]; [apply ro_ret|apply ro_raise|apply ro_raise]. Qed.
Lemma tail_ro hf lm sp mc fit l1 l2 err mo re gx gy uf io : reads_only (leastsq_tail hf lm sp mc fit l1 l2 err mo re gx gy uf io).
Proof.
  apply ro_bind; [apply ro_loadR|]. intros a1. apply ro_bind; [apply ro_loadR|]. intros a2. cbv zeta. destruct (shape a1) as [|? [|? [|? ?]]]; try apply ro_raise.
  destruct (negb lm); [apply ro_raise|]. destruct (negb uf && negb sp); [apply ro_raise|]. apply ro_bind.
  - destruct err; try apply ro_ret. apply ro_bind; [apply ro_load|]. intros [?|?|?]; apply ro_ret.
  - intros ev. apply ro_bind; [apply ro_lift|]. intros [[[x y] ex] ey]. apply ro_ret.
Qed.

(** whatever lmfit and scipy do and whether or not the call raises: where im2 is NaN the caller's error map is infinite
    afterwards, and nothing else has changed *)
Theorem C69_leastsq_overwrites_error_map_refuted :
  forall m l1 l2 le a1 a2 e hf lm sp mc fit maxoff rerr gx gy uf io,
  holds m l1 (BReal a1) -> holds m l2 (BReal a2) -> holds m le (BReal e) -> shape a1 = shape a2 -> shape e = shape a2 ->
  (exists i, inb (shape a2) i /\ get a2 i = NaN) ->
  exists e', let m' := snd (chi2_shift_leastsq_mem hf lm sp mc fit l1 l2 (ELArr le) maxoff rerr gx gy uf io m) in
    holds m' le (BExt e') /\ shape e' = shape e /\
    (forall i, get a2 i = NaN -> get e' i = XInf) /\ (forall i r, get a2 i <> NaN -> get e i = Fin r -> get e' i = XF r) /\
    unchanged_except (fun l => l = le) m m'.
Proof.
  intros m l1 l2 le a1 a2 e hf lm sp mc fit mo re gx gy uf io H1 H2 He Es Ee [j [Hj Nj]]. unfold chi2_shift_leastsq_mem.
  rewrite (mbind_ok _ _ _ _ _ (loadR_ok _ _ _ H1)), (mbind_ok _ _ _ _ _ (loadR_ok _ _ _ H2)). unfold shapes_differ.
  destruct (list_eq_dec Z.eq_dec (shape a1) (shape a2)); [|contradiction]. cbn [negb].
  destruct (replace_nan_step m l1 a1 H1) as [k1 [m1 [b1 [E1 [U1 [Q1 _]]]]]]. rewrite (mbind_ok _ _ _ _ _ E1).
  assert (H2' := U1 _ _ H2). rewrite (mbind_ok _ _ _ _ _ (loadR_ok _ _ _ H2')).
  assert (AN : any isnan a2 = true) by (unfold any; apply existsN_spec; exists j; rewrite Nj; auto). rewrite AN.
  set (m2 := m1 ++ [BReal a2]). set (k2 := length m1).
  assert (C : copy l2 m1 = (Ok k2, m2)) by (unfold copy; rewrite (mbind_ok _ _ _ _ _ (loadR_ok _ _ _ H2')); reflexivity).
  assert (N2 : holds m2 k2 (BReal a2)) by apply holds_new. assert (He1 := U1 _ _ He). assert (He2 : holds m2 le (BReal e)) by (apply holds_app; auto).
  set (e' := Arr (shape e) (fun i => if isnan (get a2 i) then XInf else match get e i with Fin r => XF r | NaN => XNaN end)).
  set (m3 := set_nth le (BExt e') m2).
  assert (Nk : le <> k2) by (apply holds_lt in He1; unfold k2; lia).
  assert (N3 : holds m3 k2 (BReal a2)) by (apply set_nth_holds; auto). assert (X3 : holds m3 le (BExt e')) by (apply set_nth_same; eapply holds_lt; eauto).
  set (m4 := set_nth k2 (BReal (put a2 (fun i => isnan (get a2 i)) (Fin 0))) m3).
  match goal with |- context [mbind ?c ?f m1] => assert (S : c m1 = (Ok k2, m4)) end.
  { rewrite (mbind_ok _ _ _ _ _ C), (mbind_ok _ _ _ _ _ (loadR_ok _ _ _ N2)).
    assert (P : (do! b := load le in match b with BReal e => if negb (if list_eq_dec Z.eq_dec (shape e) (shape a2) then true else false) then raise IndexError else put_inf le (fun i => isnan (get a2 i)) | _ => raise Unmodelled end) m2 = (Ok tt, m3)).
    { assert (L : load le m2 = (Ok (BReal e), m2)) by (unfold load; rewrite He2; reflexivity). rewrite (mbind_ok _ _ _ _ _ L).
      destruct (list_eq_dec Z.eq_dec (shape e) (shape a2)); [|contradiction]. cbn [negb]. unfold put_inf. rewrite (mbind_ok _ _ _ _ _ L). reflexivity. }
    rewrite (mbind_ok _ _ _ _ _ P), (mbind_ok _ _ _ _ _ (loadR_ok _ _ _ N3)), (mbind_ok _ _ _ _ _ (put_atR _ _ _ _ _ N3)). reflexivity. }
  rewrite (mbind_ok _ _ _ _ _ S). fold (leastsq_tail hf lm sp mc fit k1 k2 (ELArr le) mo re gx gy uf io). exists e'. cbv zeta. rewrite tail_ro.
  split; [apply set_nth_holds; auto|]. split; [reflexivity|]. split; [intros i Hi; unfold e'; cbn [get]; rewrite Hi; reflexivity|].
  split; [intros i r Hi Hr; unfold e'; cbn [get]; rewrite Hr; destruct (get a2 i); [reflexivity|congruence]|].
  intros l b N Hl. assert (LL := U1 _ _ Hl). assert (LT := holds_lt _ _ _ LL). apply set_nth_holds; [unfold k2; lia|]. apply set_nth_holds; [auto|]. apply holds_app; auto.
Qed.
Print Assumptions C69_leastsq_overwrites_error_map_refuted.
(** the images themselves, and a scalar or absent error, are safe *)
Theorem C69_leastsq_images_intact :
  forall m l1 l2 err a1 a2 hf lm sp mc fit maxoff rerr gx gy uf io,
  holds m l1 (BReal a1) -> holds m l2 (BReal a2) -> (err = ELNone \/ exists s, err = ELScalar s) ->
  unchanged m (snd (chi2_shift_leastsq_mem hf lm sp mc fit l1 l2 err maxoff rerr gx gy uf io m)).
Proof.
  intros m l1 l2 err a1 a2 hf lm sp mc fit mo re gx gy uf io H1 H2 He. unfold chi2_shift_leastsq_mem.
  rewrite (mbind_ok _ _ _ _ _ (loadR_ok _ _ _ H1)), (mbind_ok _ _ _ _ _ (loadR_ok _ _ _ H2)). unfold shapes_differ.
  destruct (list_eq_dec Z.eq_dec (shape a1) (shape a2)); cbn [negb]; [|apply unchanged_refl].
  destruct (replace_nan_step m l1 a1 H1) as [k1 [m1 [b1 [E1 [U1 [Q1 _]]]]]]. rewrite (mbind_ok _ _ _ _ _ E1).
  assert (H2' := U1 _ _ H2). rewrite (mbind_ok _ _ _ _ _ (loadR_ok _ _ _ H2')).
  assert (ET : exists k2 m4, (if any isnan a2 then do! im2 := copy l2 in do! a2 := loadR im2 in do! _ := ret tt in do! a2 := loadR im2 in do! _ := put_at im2 (fun i => isnan (get a2 i)) (Fin 0) in ret im2 else ret l2) m1 = (Ok k2, m4) /\ unchanged m1 m4).
  { destruct (any isnan a2); [|exists l2, m1; split; [reflexivity|apply unchanged_refl]].
    assert (C : copy l2 m1 = (Ok (length m1), m1 ++ [BReal a2])) by (unfold copy; rewrite (mbind_ok _ _ _ _ _ (loadR_ok _ _ _ H2')); reflexivity).
    rewrite (mbind_ok _ _ _ _ _ C). assert (N := holds_new m1 (BReal a2)). rewrite (mbind_ok _ _ _ _ _ (loadR_ok _ _ _ N)). rewrite (mbind_ok (ret tt) _ _ tt _ eq_refl).
    rewrite (mbind_ok _ _ _ _ _ (loadR_ok _ _ _ N)), (mbind_ok _ _ _ _ _ (put_atR _ _ _ _ _ N)). eexists _, _. split; [reflexivity|]. apply unchanged_store; [apply unchanged_app|lia]. }
  destruct ET as [k2 [m4 [ET U4]]]. assert (RT : reads_only (leastsq_tail hf lm sp mc fit k1 k2 err mo re gx gy uf io)) by apply tail_ro.
  destruct He as [->|[s ->]]; rewrite (mbind_ok _ _ _ _ _ ET).
  - fold (leastsq_tail hf lm sp mc fit k1 k2 ELNone mo re gx gy uf io). rewrite RT. eauto using unchanged_trans.
  - fold (leastsq_tail hf lm sp mc fit k1 k2 (ELScalar s) mo re gx gy uf io). rewrite RT. eauto using unchanged_trans.
Qed.
Print Assumptions C69_leastsq_images_intact.

(** *** what the minimiser is given *)
(** the error argument is None, a scalar, or an array of the images' shape *)
Definition err_fits (m : mem) (err : errloc) (sh : list Z) : Prop :=
  match err with ELNone => True | ELScalar s => s <> 0 | ELArr l => exists e, holds m l (BReal e) /\ shape e = sh end.

Lemma replace_nan_where m l a l' m' : holds m l (BReal a) -> replace_nan l m = (Ok l', m') -> l' = l \/ (length m <= l')%nat.
Proof.
  intros H. unfold replace_nan. rewrite (mbind_ok _ _ _ _ _ (loadR_ok _ _ _ H)). destruct (any isnan a).
  - assert (C : copy l m = (Ok (length m), m ++ [BReal a])) by (unfold copy; rewrite (mbind_ok _ _ _ _ _ (loadR_ok _ _ _ H)); reflexivity).
    assert (N := holds_new m (BReal a)).
    rewrite (mbind_ok _ _ _ _ _ C), (mbind_ok _ _ _ _ _ (loadR_ok _ _ _ N)), (mbind_ok _ _ _ _ _ (put_atR _ _ _ _ _ N)). intros E. injection E as <- _. right; lia.
  - intros E. injection E as <- _. auto.
Qed.

Lemma leastsq_reduce m l1 l2 err a1 a2 hf lm sp mc fit mo re gx gy uf io :
  holds m l1 (BReal a1) -> holds m l2 (BReal a2) -> shape a1 = shape a2 -> err_fits m err (shape a2) -> err <> ELArr l1 -> err <> ELArr l2 ->
  exists k1 k2 m4 b1 b2,
    chi2_shift_leastsq_mem hf lm sp mc fit l1 l2 err mo re gx gy uf io m = leastsq_tail hf lm sp mc fit k1 k2 err mo re gx gy uf io m4 /\
    holds m4 k1 (BReal b1) /\ holds m4 k2 (BReal b2) /\ shape b1 = shape a1 /\ shape b2 = shape a2 /\
    (forall i, nan0 (get b1 i) = nan0 (get a1 i)) /\ (forall i, nan0 (get b2 i) = nan0 (get a2 i)) /\
    match err with ELArr l => exists b, holds m4 l b | _ => True end.
Proof.
  intros H1 H2 Es He Nl1 Nl2. unfold chi2_shift_leastsq_mem.
  rewrite (mbind_ok _ _ _ _ _ (loadR_ok _ _ _ H1)), (mbind_ok _ _ _ _ _ (loadR_ok _ _ _ H2)). unfold shapes_differ.
  destruct (list_eq_dec Z.eq_dec (shape a1) (shape a2)) as [_|NE]; [|contradiction]. cbn [negb].
  destruct (replace_nan_step m l1 a1 H1) as [k1 [m1 [b1 [E1 [U1 [Q1 [S1 [V1 _]]]]]]]]. rewrite (mbind_ok _ _ _ _ _ E1).
  assert (Wh := replace_nan_where _ _ _ _ _ H1 E1).
  assert (H2' := U1 _ _ H2). rewrite (mbind_ok _ _ _ _ _ (loadR_ok _ _ _ H2')).
  destruct (any isnan a2) eqn:AN.
  2:{ rewrite (mbind_ok (ret l2) _ m1 l2 m1 eq_refl). exists k1, l2, m1, b1, a2. split; [reflexivity|]. repeat (split; [now auto|]).
      destruct err as [|s|l]; auto. destruct He as [e [He _]]. eauto. }
  set (m2 := m1 ++ [BReal a2]). set (k2 := length m1).
  assert (C : copy l2 m1 = (Ok k2, m2)) by (unfold copy; rewrite (mbind_ok _ _ _ _ _ (loadR_ok _ _ _ H2')); reflexivity).
  assert (N2 : holds m2 k2 (BReal a2)) by apply holds_new.
  assert (Q2 : holds m2 k1 (BReal b1)) by (apply holds_app; auto).
  set (b2 := put a2 (fun i => isnan (get a2 i)) (Fin 0)).
  assert (V2 : forall i, nan0 (get b2 i) = nan0 (get a2 i)) by (intros i; unfold b2; cbn [get put]; destruct (get a2 i); reflexivity).
  assert (Nk1 : k2 <> k1) by (apply holds_lt in Q1; unfold k2; lia).
  assert (W : exists m3, (match err with
     | ELArr l => do! b := load l in match b with BReal e => if negb (if list_eq_dec Z.eq_dec (shape e) (shape a2) then true else false) then raise IndexError else put_inf l (fun i => isnan (get a2 i)) | _ => raise Unmodelled end
     | _ => ret tt end) m2 = (Ok tt, m3) /\ holds m3 k2 (BReal a2) /\ holds m3 k1 (BReal b1) /\ match err with ELArr l => exists b, holds m3 l b /\ l <> k2 | _ => True end).
  { destruct err as [|s|le]; try (exists m2; split; [reflexivity|]; now auto).
    destruct He as [e [He Se]]. assert (He1 := U1 _ _ He). assert (He2 : holds m2 le (BReal e)) by (apply holds_app; auto).
    assert (L : load le m2 = (Ok (BReal e), m2)) by (unfold load; rewrite He2; reflexivity).
    eexists. split.
    - rewrite (mbind_ok _ _ _ _ _ L). destruct (list_eq_dec Z.eq_dec (shape e) (shape a2)) as [_|NE]; [|contradiction]. cbn [negb].
      unfold put_inf. rewrite (mbind_ok _ _ _ _ _ L). reflexivity.
    - assert (Nk : le <> k2) by (apply holds_lt in He1; unfold k2; lia). split; [apply set_nth_holds; auto|]. split.
      + apply set_nth_holds; auto. intros ->. destruct Wh as [->|Wh]; [congruence|]. apply holds_lt in He. lia.
      + eexists. split; [apply set_nth_same; eapply holds_lt; eauto|auto]. }
  destruct W as [m3 [W [N3 [Q3 X3]]]].
  exists k1, k2, (set_nth k2 (BReal b2) m3), b1, b2. split.
  { assert (S : (do! im2 := copy l2 in do! a2 := loadR im2 in
       do! _ := (match err with ELArr l => do! b := load l in match b with BReal e => if negb (if list_eq_dec Z.eq_dec (shape e) (shape a2) then true else false) then raise IndexError else put_inf l (fun i => isnan (get a2 i)) | _ => raise Unmodelled end | _ => ret tt end) in
       do! a2 := loadR im2 in do! _ := put_at im2 (fun i => isnan (get a2 i)) (Fin 0) in ret im2) m1 = (Ok k2, set_nth k2 (BReal b2) m3)).
    { rewrite (mbind_ok _ _ _ _ _ C), (mbind_ok _ _ _ _ _ (loadR_ok _ _ _ N2)), (mbind_ok _ _ _ _ _ W), (mbind_ok _ _ _ _ _ (loadR_ok _ _ _ N3)), (mbind_ok _ _ _ _ _ (put_atR _ _ _ _ _ N3)). reflexivity. }
    rewrite (mbind_ok _ _ _ _ _ S). reflexivity. }
  split; [apply set_nth_holds; auto|]. split; [apply set_nth_same; eapply holds_lt; eauto|]. repeat (split; [now auto|]).
  destruct err as [|s|l]; auto. destruct X3 as [b [X3 N]]. exists b. apply set_nth_holds; auto.
Qed.

Lemma shift_real hf (a : arr R) ysh xsh : pos_shape (shape a) ->
  exists x, shiftnd hf (of_R a) [ysh; xsh] 0 1 false false true = Ok (RealArr x) /\ shape x = shape a /\
    forall i, inb (shape a) i -> get x i = Re (shifted (shape a) (fun i => RtoC (get a i)) (fit_offset [ysh; xsh] (shape a)) 0 i).
Proof.
  intros Hp. destruct (shiftnd_ok hf (of_R a) [ysh; xsh] 0 1 false false true Hp) as [r [E [S G]]]. rewrite E. eexists. split; [reflexivity|]. split; [exact S|].
  intros i Hi. cbn [get amap]. rewrite G by auto. reflexivity.
Qed.

(** *** C77 *)
(** Every call with maxoff, and every call with ignore_outside=True (the default), raises TypeError as soon as lmfit asks for
    the first residual *)
Theorem C77_defaults_raise :
  forall m l1 l2 err a1 a2 ny nx has_fftw has_scipy mc fit maxoff rerr gx gy use_fft ignore_outside x y next,
  holds m l1 (BReal a1) -> holds m l2 (BReal a2) -> shape a1 = [ny; nx] -> shape a2 = [ny; nx] -> (0 < ny)%Z -> (0 < nx)%Z ->
  err_fits m err [ny; nx] -> err <> ELArr l1 -> err <> ELArr l2 -> (use_fft = true \/ has_scipy = true) ->
  fit gx gy maxoff = Try x y next ->
  maxoff <> None \/ ignore_outside = true ->
  fst (chi2_shift_leastsq_mem has_fftw true has_scipy mc fit l1 l2 err maxoff rerr gx gy use_fft ignore_outside m) = Raise TypeError.
Proof.
  intros m l1 l2 err a1 a2 ny nx hf sp mc fit mo re gx gy uf io x y next H1 H2 S1 S2 Hy Hx He N1 N2 Hs Hf Hc.
  destruct (leastsq_reduce m l1 l2 err a1 a2 hf true sp mc fit mo re gx gy uf io H1 H2 ltac:(congruence) ltac:(rewrite S2; auto) N1 N2)
    as [k1 [k2 [m4 [b1 [b2 [E [Q1 [Q2 [T1 [T2 [V1 [V2 X]]]]]]]]]]]]. rewrite E. unfold leastsq_tail.
  rewrite (mbind_ok _ _ _ _ _ (loadR_ok _ _ _ Q1)), (mbind_ok _ _ _ _ _ (loadR_ok _ _ _ Q2)). cbv zeta. rewrite T1, S1. cbn [negb].
  assert (B : (negb uf && negb sp)%bool = false) by (destruct Hs as [->| ->]; [reflexivity|apply andb_false_r]). rewrite B.
  assert (L : exists ev, load_err err m4 = (Ok ev, m4)).
  { destruct err as [|s|l]; try (eexists; reflexivity). destruct X as [b X]. cbn [load_err]. unfold mbind, load. rewrite X. destruct b; eexists; reflexivity. }
  destruct L as [ev L]. rewrite (mbind_ok _ _ _ _ _ L). unfold mbind, lift. rewrite Hf. cbn [minimize].
  assert (R : residuals hf mc uf mo io (minus_mean b1) (minus_mean b2) ev x y = Raise TypeError).
  { assert (Sh : exists img, (if uf then let! s := shiftnd hf (of_R (minus_mean b2)) [- y; - x] 0 1 false false true in match s with RealArr x => Ok x | CplxArr _ => Raise Unmodelled end else Ok (mc (minus_mean b2) y x)) = Ok img).
    { destruct uf; [|eauto]. destruct (shift_real hf (minus_mean b2) (- y) (- x)) as [r [-> _]]; [cbn [shape minus_mean]; rewrite T2, S2; repeat constructor; auto|]. cbn [bind]. eauto. }
    destruct Sh as [img Sh]. unfold residuals. cbv zeta. rewrite Sh. cbn [bind]. destruct mo; [reflexivity|]. destruct Hc as [Hc| ->]; [congruence|reflexivity]. }
  rewrite R. reflexivity.
Qed.
Print Assumptions C77_defaults_raise.

(** *** C78 *)
(** the image with NaN counted as 0, minus its mean over all pixels *)
Definition centred_image (a : arr num) (ny nx y x : Z) : R := px a y x - pixel_sum ny nx (px a) / (IZR ny * IZR nx).
Definition sigma_of (err : errloc) : R := match err with ELScalar s => s | _ => 1 end.

Lemma minus_mean_px b a ny nx y x : shape b = [ny; nx] -> (forall i, nan0 (get b i) = nan0 (get a i)) -> (0 < ny)%Z -> (0 < nx)%Z ->
  get (minus_mean b) [y; x] = centred_image a ny nx y x.
Proof.
  intros S V Hy Hx. unfold minus_mean, centred_image. cbn [get]. rewrite S. cbn [prodZ fold_right].
  assert (P : forall i j, nan0 (get b [i; j]) = px a i j) by (intros i j; rewrite V; unfold px; destruct (get a [i; j]); reflexivity).
  rewrite P. f_equal. unfold Rdiv. f_equal.
  - rewrite sumNR_cons. unfold pixel_sum. apply sumR_ext. intros i Hi. rewrite sumNR_cons. apply sumR_ext. intros j Hj. rewrite sumNR_nil. apply P.
  - f_equal. rewrite <- mult_IZR. f_equal. lia.
Qed.

(** With use_fft=True, ignore_outside=False and no maxoff, what lmfit minimises at (x, y) is the difference between im1 and im2
    Fourier-shifted by (-x, -y), and the answer is what lmfit says *)
Theorem C78_objective :
  forall m l1 l2 err a1 a2 ny nx has_fftw has_scipy mc fit rerr gx gy,
  holds m l1 (BReal a1) -> holds m l2 (BReal a2) -> shape a1 = [ny; nx] -> shape a2 = [ny; nx] -> (0 < ny)%Z -> (0 < nx)%Z ->
  (err = ELNone \/ exists s, err = ELScalar s /\ s <> 0) ->
  exists objective : R -> R -> arr R,
    (forall x y, shape (objective x y) = [ny; nx] /\ forall i j, (0 <= i < ny)%Z -> (0 <= j < nx)%Z ->
       get (objective x y) [i; j] =
       Rabs (centred_image a1 ny nx i j - fshift ny nx (centred_image a2 ny nx) (- y) (- x) i j) / sqrt (IZR ny * IZR nx) / sigma_of err) /\
    fst (chi2_shift_leastsq_mem has_fftw true has_scipy mc fit l1 l2 err None rerr gx gy true false m) =
      match minimize (fun x y => Ok (objective x y)) (fit gx gy None) with
      | Ok (x, y, ex, ey) => Ok (if rerr then [Some x; Some y; ex; ey] else [Some x; Some y])
      | Raise e => Raise e
      end.
Proof.
  intros m l1 l2 err a1 a2 ny nx hf sp mc fit re gx gy H1 H2 S1 S2 Hy Hx He.
  assert (EF : err_fits m err (shape a2) /\ err <> ELArr l1 /\ err <> ELArr l2) by (destruct He as [->|[s [-> N]]]; repeat split; auto; discriminate).
  destruct EF as [EF [N1 N2]].
  destruct (leastsq_reduce m l1 l2 err a1 a2 hf true sp mc fit None re gx gy true false H1 H2 ltac:(congruence) EF N1 N2)
    as [k1 [k2 [m4 [b1 [b2 [E [Q1 [Q2 [T1 [T2 [V1 [V2 X]]]]]]]]]]]]. rewrite E. unfold leastsq_tail.
  rewrite (mbind_ok _ _ _ _ _ (loadR_ok _ _ _ Q1)), (mbind_ok _ _ _ _ _ (loadR_ok _ _ _ Q2)). cbv zeta. rewrite T1, S1. cbn [negb andb].
  set (i1 := minus_mean b1). set (i2 := minus_mean b2).
  assert (P2 : pos_shape (shape i2)) by (unfold i2; cbn [shape minus_mean]; rewrite T2, S2; repeat constructor; auto).
  pose (sh := fun x y => match shiftnd hf (of_R i2) [- y; - x] 0 1 false false true with Ok (RealArr r) => r | _ => i2 end).
  pose (obj := fun x y => Arr [ny; nx] (fun i => Rabs (get i1 i - get (sh x y) i) / sqrt (IZR (prodZ (shape i1))) / sigma_of err)).
  exists obj. split.
  - intros x y. split; [reflexivity|]. intros i j Hi Hj. unfold obj. cbn [get]. f_equal. f_equal.
    2:{ unfold i1. cbn [shape minus_mean]. rewrite T1, S1. cbn [prodZ fold_right]. rewrite <- mult_IZR. do 2 f_equal. lia. }
    f_equal. unfold i1. rewrite (minus_mean_px b1 a1 ny nx) by (auto; congruence). f_equal. unfold sh.
    destruct (shift_real hf i2 (- y) (- x) P2) as [r [-> [_ G]]].
    assert (Si : shape i2 = [ny; nx]) by (unfold i2; cbn [shape minus_mean]; congruence).
    rewrite G by (rewrite Si; repeat split; lia). rewrite Si. rewrite fit_offset_id by reflexivity. rewrite fshift_shifted by auto. f_equal.
    apply shifted_ext. intros z Hz. apply inb2' in Hz. destruct Hz as [p [q [-> [Hp Hq]]]]. cbn [img2]. f_equal. apply minus_mean_px; auto; congruence.
  - assert (L : exists ev, load_err err m4 = (Ok ev, m4) /\ (ev = EVNone /\ err = ELNone \/ exists s, ev = EVScalar s /\ err = ELScalar s /\ s <> 0)).
    { destruct He as [->|[s [-> N]]]; eexists; (split; [reflexivity|]); eauto. }
    destruct L as [ev [L Lv]]. rewrite (mbind_ok _ _ _ _ _ L).
    assert (R : forall x y, residuals hf mc true None false i1 i2 ev x y = Ok (obj x y)).
    { intros x y. unfold residuals, obj, sh. cbv zeta. destruct (shift_real hf i2 (- y) (- x) P2) as [r [-> _]]. cbn [bind].
      assert (Si : shape i1 = [ny; nx]) by (unfold i1; cbn [shape minus_mean]; congruence).
      destruct Lv as [[-> ->]|[s [-> [-> N]]]].
      - cbn [sigma_of]. rewrite Si. do 2 f_equal. apply functional_extensionality. intros i. symmetry. apply (fun z : R => ltac:(field) : z / 1 = z).
      - destruct (Req_EM_T s 0); [contradiction|]. cbn [sigma_of]. unfold amap. cbn [shape get]. rewrite Si. reflexivity. }
    assert (F : forall f, minimize (residuals hf mc true None false i1 i2 ev) f = minimize (fun x y => Ok (obj x y)) f).
    { induction f as [x y ex ey|x y next IH]; [reflexivity|]. cbn [minimize]. rewrite R. apply IH. }
    unfold mbind, lift. rewrite F. destruct (minimize _ _) as [[[[x y] ex] ey]|e]; reflexivity.
Qed.
Print Assumptions C78_objective.

Lemma fshift_of_roll ny nx f g dy dx ty tx i j : (0 < ny)%Z -> (0 < nx)%Z -> (0 <= i < ny)%Z -> (0 <= j < nx)%Z ->
  (forall y x, (0 <= y < ny)%Z -> (0 <= x < nx)%Z -> g y x = f ((y - dy) mod ny) ((x - dx) mod nx))%Z ->
  fshift ny nx g ty tx i j = fshift ny nx f (IZR dy + ty) (IZR dx + tx) i j.
Proof.
  intros Hy Hx Hi Hj H. rewrite !fshift_shifted by auto. f_equal. assert (Hp := pos2 ny nx Hy Hx).
  assert (C := shifted_comp [ny; nx] (fun y => RtoC (img2 f y)) (toR [dy; dx]) 0 [ty; tx] 0 [i; j] Hp eq_refl eq_refl).
  rewrite Rplus_0_l in C. change (addR (toR [dy; dx]) [ty; tx]) with [IZR dy + ty; IZR dx + tx] in C.
  rewrite <- C by (repeat split; lia). apply shifted_ext. intros z Hz. assert (Hz' := Hz). apply inb2' in Hz. destruct Hz as [p [q [-> [Hp' Hq]]]].
  rewrite shifted_int by auto. rewrite Ropp_0, cis_0, Cmult_1_l. cbn [img2]. rewrite H by auto. reflexivity.
Qed.

Lemma centred_roll a b ny nx dy dx y x : is_roll a b ny nx dy dx -> (0 < ny)%Z -> (0 < nx)%Z -> (0 <= y < ny)%Z -> (0 <= x < nx)%Z ->
  centred_image b ny nx y x = centred_image a ny nx ((y - dy) mod ny) ((x - dx) mod nx).
Proof.
  intros [H1 [H2 H]] Hy Hx HY HX. unfold centred_image. unfold px at 1. rewrite H by auto. f_equal. f_equal.
  change (pixel_sum ny nx) with (sum2 ny nx). rewrite <- (sum2_shift ny nx (px a) (- dy) (- dx)) by auto.
  apply sum2_ext. intros i j Hi Hj. unfold px. rewrite H by auto. reflexivity.
Qed.

(** If im2 is im1 rolled by (dy, dx), the objective vanishes at x = dx, y = dy and, unless another Fourier shift leaves im1
    unchanged, nowhere else (up to whole periods): the sign and axis order are those of the other methods *)
Theorem C78_roll_is_the_perfect_fit :
  forall im1 im2 ny nx dy dx, is_roll im1 im2 ny nx dy dx -> (0 < ny)%Z -> (0 < nx)%Z ->
  let perfect x y := forall i j, (0 <= i < ny)%Z -> (0 <= j < nx)%Z ->
      Rabs (centred_image im1 ny nx i j - fshift ny nx (centred_image im2 ny nx) (- y) (- x) i j) = 0 in
  perfect (IZR dx) (IZR dy) /\
  (no_real_symmetry ny nx (centred_image im1 ny nx) ->
     forall x y, perfect x y -> exists k l : Z, y = IZR (dy + k * ny) /\ x = IZR (dx + l * nx)).
Proof.
  intros im1 im2 ny nx dy dx HR Hy Hx perfect.
  assert (F : forall x y i j, (0 <= i < ny)%Z -> (0 <= j < nx)%Z -> fshift ny nx (centred_image im2 ny nx) (- y) (- x) i j = fshift ny nx (centred_image im1 ny nx) (IZR dy - y) (IZR dx - x) i j).
  { intros x y i j Hi Hj. apply fshift_of_roll; auto. intros p q Hp Hq. apply (centred_roll im1 im2); auto. }
  split.
  - intros i j Hi Hj. rewrite F by auto. rewrite !Rminus_diag_eq with (r1 := IZR dy) (r2 := IZR dy), !Rminus_diag_eq with (r1 := IZR dx) (r2 := IZR dx) by reflexivity.
    rewrite (fshift_int ny nx _ 0 0) by auto. rewrite !Z.sub_0_r, !Z.mod_small by auto. rewrite Rminus_diag_eq by reflexivity. apply Rabs_R0.
  - intros Hn x y P. destruct (Hn (IZR dy - y) (IZR dx - x)) as [k [l [K L]]].
    + intros i j Hi Hj. specialize (P i j Hi Hj). rewrite F in P by auto. destruct (Req_EM_T (centred_image im1 ny nx i j - fshift ny nx (centred_image im1 ny nx) (IZR dy - y) (IZR dx - x) i j) 0) as [Z|Z]; [lra|].
      apply Rabs_no_R0 in Z. contradiction.
    + exists (- k)%Z, (- l)%Z. rewrite !plus_IZR, !mult_IZR, !opp_IZR. split; lra.
Qed.
Print Assumptions C78_roll_is_the_perfect_fit.
