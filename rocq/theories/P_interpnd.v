(** Property C79: fourier_interpnd *)
From Coq Require Import ZArith Lia List Reals Lra Bool.
From Coquelicot Require Import Complex.
From Verif Require Import Base NDim DFT Kernel Py M_fast_ffts M_shift M_scale M_interpnd Spec L_shift L_scale P_scale.
Import ListNotations.
Open Scope R_scope.

(** On 2-D data, where list indices are accepted, fourier_interpnd returns (or raises) exactly what fourier_interp2d does. *)
Theorem C79_interpnd_2d_is_interp2d :
  forall env (data : arr C) o nt np rr,
  ndim data = 2%nat ->
  same_result (fourier_interpnd true env data o nt np rr) (fourier_interp2d env data o nt np rr).
Proof.
  intros env data o nt np rr Hd. unfold fourier_interpnd, fourier_interp2d.
  destruct (get_ffts env nt np) as [fw iv].
  destruct (check_outinds (ndim data) o) as [u|x]; simpl bind; [|reflexivity].
  unfold ndim in Hd. destruct (shape data) as [|ny [|nx [|? ?]]]; try discriminate Hd.
  destruct (check_fft [ny; nx]) as [u1|x]; simpl bind; [|reflexivity]. simpl negb. cbv iota.
  unfold nd_coords. destruct (axis_coords o 0) as [ys|x]; simpl bind; [|reflexivity].
  destruct (axis_coords o 1) as [xs|x]; simpl bind; [|reflexivity].
  set (A := mk2 _ _ _). set (B := mk2 _ _ _).
  assert (E : aeq A B).
  { split; [reflexivity|]. intros i Hi. subst A B. unfold mk2 in *. simpl shape in Hi. simpl get.
    assert (Hsum : forall a b, sumC nx (fun l => Cmult (sumC ny (fun k => Cmult (g2 (iv data) k l) (cis (- (2 * PI) * (fftfreq ny k * g1 ys a)))))
          (cis (- (2 * PI) * (fftfreq nx l * g1 xs b)))) =
        sumC nx (fun l => Cmult (sumC ny (fun k => Cmult (cis (- (2 * PI) * (fftfreq ny k * g1 ys a))) (g2 (iv data) k l)))
          (cis (- (2 * PI) * (fftfreq nx l * g1 xs b))))).
    { intros a b. apply sumC_ext. intros l Hl. apply (f_equal (fun z => Cmult z _)).
      apply sumC_ext. intros k Hk. apply Cmult_comm. }
    destruct i as [|i [|j [|? ?]]]; apply Hsum. }
  unfold pick_real. destruct rr; simpl; auto.
  destruct E as [E1 E2]. split; [exact E1|]. intros i Hi. simpl. f_equal. apply E2. exact Hi.
Qed.
Print Assumptions C79_interpnd_2d_is_interp2d.

(** so it evaluates the trigonometric interpolant of the image at all pairs of the requested coordinates *)
Theorem C79_interpnd_is_separable_interpolant :
  forall env (data : arr R) ny nx (ys xs : list R) nt np,
  shape data = [ny; nx] -> (0 < ny)%Z -> (0 < nx)%Z ->
  exists r, fourier_interpnd true env (re_img data) (IndSeq [ys; xs]) nt np true = Ok (RealArr r) /\
    shape r = [Z.of_nat (length ys); Z.of_nat (length xs)] /\
    forall i j, (i < length ys)%nat -> (j < length xs)%nat ->
      g2 r (Z.of_nat i) (Z.of_nat j) = trig_interpR [ny; nx] (get data) [nth i ys 0; nth j xs 0].
Proof.
  intros env data ny nx ys xs nt np Hs Hy Hx.
  destruct (C13_interp2d_is_separable_interpolant env data ny nx ys xs nt np Hs Hy Hx) as [r [H1 [H2 H3]]].
  assert (S := C79_interpnd_2d_is_interp2d env (re_img data) (IndSeq [ys; xs]) nt np true).
  unfold ndim, re_img in S. simpl shape in S. rewrite Hs in S. specialize (S eq_refl). fold (re_img data) in S.
  rewrite H1 in S.
  destruct (fourier_interpnd true env (re_img data) (IndSeq [ys; xs]) nt np true) as [[r'|r']|x]; simpl in S; try contradiction.
  exists r'. destruct S as [S1 S2]. split; [reflexivity|]. split; [congruence|]. intros i j Hi Hj.
  rewrite <- H3 by auto. unfold g2. apply S2. rewrite S1, H2. repeat constructor; lia.
Qed.
Print Assumptions C79_interpnd_is_separable_interpolant.

(** With a numpy that does not accept lists of slices as index, no call returns. *)
Theorem C79_interpnd_never_returns_on_modern_numpy :
  forall env (data : arr C) o nt np rr,
  exists x, fourier_interpnd false env data o nt np rr = Raise x /\
    (pos_shape (shape data) -> (0 < ndim data)%nat -> check_outinds (ndim data) o = Ok tt -> x = IndexError).
Proof.
  intros env data o nt np rr. unfold fourier_interpnd. destruct (get_ffts env nt np) as [fw iv].
  destruct (check_outinds (ndim data) o) as [u|x]; simpl bind; [|eexists; split; [reflexivity|discriminate]].
  destruct (check_fft (shape data)) as [u1|x] eqn:E; simpl bind.
  - unfold ndim. destruct (shape data) as [|a [|b [|c l]]]; simpl; eexists; (split; [reflexivity|]); auto. intros _ H. lia.
  - eexists. split; [reflexivity|]. intros Hp. rewrite check_fft_ok in E by auto. discriminate.
Qed.
Print Assumptions C79_interpnd_never_returns_on_modern_numpy.

(** 1-D data never work (fourier_interp1d is the function for them); neither do cubes with coordinate lists. *)
Theorem C79_interpnd_other_dimensions_raise :
  forall lio env (data : arr C) nt np rr,
  (ndim data = 1%nat -> forall o, exists x, fourier_interpnd lio env data o nt np rr = Raise x /\ (x = ValueError \/ x = IndexError)) /\
  (forall n0 n1 n2 rest o, shape data = n0 :: n1 :: n2 :: rest -> n0 <> 1%Z ->
     match o with IndSeq _ => True | IndArr a => ndim a = (ndim data + 1)%nat end ->
     exists x, fourier_interpnd lio env data o nt np rr = Raise x /\ (x = ValueError \/ x = IndexError)).
Proof.
  intros lio env data nt np rr. unfold fourier_interpnd. destruct (get_ffts env nt np) as [fw iv].
  assert (Hc : forall nd o, check_outinds nd o = Ok tt \/ check_outinds nd o = Raise ValueError).
  { intros nd [a|l]; unfold check_outinds; repeat (match goal with |- context [if ?c then _ else _] => destruct c end); auto. }
  assert (Hf : forall sh, check_fft sh = Ok tt \/ check_fft sh = Raise ValueError).
  { intros sh. unfold check_fft. destruct (pos_shapeb sh); auto. }
  split.
  - intros Hd o. destruct (Hc (ndim data) o) as [E|E]; rewrite E; simpl bind; [|eexists; split; [reflexivity|auto]].
    destruct (Hf (shape data)) as [F|F]; rewrite F; simpl bind; [|eexists; split; [reflexivity|auto]].
    unfold ndim in Hd. destruct (shape data) as [|n [|? ?]]; try discriminate Hd.
    destruct lio; simpl; [|eexists; split; [reflexivity|auto]].
    destruct o as [a|l]; [destruct (Nat.eqb (ndim a) 1)|]; eexists; (split; [reflexivity|auto]).
  - intros n0 n1 n2 rest o Hs H1 Ho. destruct (Hc (ndim data) o) as [E|E]; rewrite E; cbn [bind]; [|eexists; split; [reflexivity|auto]].
    destruct (Hf (shape data)) as [F|F]; rewrite F; cbn [bind]; [|eexists; split; [reflexivity|auto]].
    rewrite Hs. destruct lio; cbn [negb]; [|eexists; split; [reflexivity|auto]].
    destruct (Z.eqb_spec n0 1) as [|_]; [congruence|]. destruct o as [a|l]; [|eexists; split; [reflexivity|auto]].
    rewrite Ho, Nat.eqb_refl. cbn [negb]. destruct (pos_shapeb (skipn 2 (shape a))); cbn [negb]; eexists; (split; [reflexivity|auto]).
Qed.
Print Assumptions C79_interpnd_other_dimensions_raise.

(** which exception, where lists of slices are accepted *)
Theorem C79_interpnd_exceptions :
  forall env (data : arr C) nt np rr,
  (forall n o, shape data = [n] -> (0 < n)%Z ->
     fourier_interpnd true env data o nt np rr =
       Raise (match o with IndArr a => if list_eq_dec Z.eq_dec (shape a) [1%Z] then IndexError else ValueError | IndSeq _ => ValueError end)) /\
  (forall n0 n1 n2 rest l, shape data = n0 :: n1 :: n2 :: rest -> n0 <> 1%Z -> fourier_interpnd true env data (IndSeq l) nt np rr = Raise ValueError) /\
  (forall n0 n1 n2 rest a, shape data = n0 :: n1 :: n2 :: rest -> n0 <> 1%Z -> ndim a = (ndim data + 1)%nat -> pos_shape (shape a) ->
     fourier_interpnd true env data (IndArr a) nt np rr = Raise ValueError).
Proof.
  intros env data nt np rr. unfold fourier_interpnd. destruct (get_ffts env nt np) as [fw iv].
  assert (Hc : forall nd o, check_outinds nd o = Ok tt \/ check_outinds nd o = Raise ValueError).
  { intros nd [a|l]; unfold check_outinds; repeat (match goal with |- context [if ?c then _ else _] => destruct c end); auto. }
  assert (Hf : forall sh, check_fft sh = Ok tt \/ check_fft sh = Raise ValueError).
  { intros sh. unfold check_fft. destruct (pos_shapeb sh); auto. }
  split; [|split].
  - intros n o Hs Hn. assert (F : check_fft (shape data) = Ok tt) by (rewrite Hs; apply check_fft_ok; repeat constructor; auto).
    unfold ndim at 1. rewrite Hs in F. rewrite Hs, F. cbn [length]. cbn [bind].
    destruct o as [a|l].
    + unfold check_outinds, indspec_len, ndim. destruct (list_eq_dec Z.eq_dec (shape a) [1%Z]) as [->|N]; [reflexivity|].
      destruct (shape a) as [|p [|q [|r t]]] eqn:Ea; cbn [length Nat.eqb Nat.add negb andb]; try reflexivity.
      * destruct (Z.eqb_spec p 1) as [->|]; [congruence|]. cbn. destruct (p =? 1)%Z eqn:Q; [apply Z.eqb_eq in Q; congruence|reflexivity].
      * cbn. destruct (p =? 1)%Z; reflexivity.
    + unfold check_outinds. destruct (negb _); reflexivity.
  - intros n0 n1 n2 rest l Hs H1. destruct (Hc (ndim data) (IndSeq l)) as [E|E]; rewrite E; cbn [bind]; [|reflexivity].
    destruct (Hf (shape data)) as [F|F]; rewrite F; cbn [bind]; [|reflexivity]. rewrite Hs. cbn [negb]. destruct (Z.eqb_spec n0 1); [congruence|reflexivity].
  - intros n0 n1 n2 rest a Hs H1 Ho Hp. destruct (Hc (ndim data) (IndArr a)) as [E|E]; rewrite E; cbn [bind]; [|reflexivity].
    destruct (Hf (shape data)) as [F|F]; rewrite F; cbn [bind]; [|reflexivity]. rewrite Hs. cbn [negb]. rewrite Ho, Nat.eqb_refl. cbn [negb].
    assert (P : pos_shapeb (skipn 2 (shape a)) = true).
    { apply pos_shapeb_spec. apply Forall_forall. intros z Hz. unfold pos_shape in Hp. rewrite Forall_forall in Hp. apply Hp. rewrite <- (firstn_skipn 2 (shape a)). apply in_or_app. auto. }
    rewrite P. cbn [negb]. destruct (Z.eqb_spec n0 1); [congruence|reflexivity].
Qed.
Print Assumptions C79_interpnd_exceptions.

Example C79_nonvacuous :
  let data := mk2 2 3 (fun y x => RtoC (IZR (y + 2 * x))) in
  ndim data = 2%nat /\ pos_shape (shape data) /\ check_outinds (ndim data) (IndSeq [[1/2]; [0; 3/2]]) = Ok tt /\
  shape (Arr [2; 3; 4]%Z (fun _ => RtoC 1)) = (2 :: 3 :: 4 :: [])%Z /\ ndim (Arr [5]%Z (fun _ => RtoC 1)) = 1%nat.
Proof. repeat split; repeat constructor; simpl; lia. Qed.
