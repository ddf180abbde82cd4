(** More about C17 and C18: the values returned by zoomnd, the return flags, empty output shapes *)
From Coq Require Import ZArith Lia List Reals Lra Bool.
From Coquelicot Require Import Complex.
From Verif Require Import Base NDim DFT Kernel Py M_fast_ffts M_shift M_scale M_zoom Spec L_shift L_scale L_zoom P_zoom.
Import ListNotations.
Open Scope R_scope.

(** zoomnd of an image: pixel (i,j) is the trigonometric interpolant at the returned coordinates *)
Theorem C17_zoomnd_2d_values :
  forall env (inp : arr R) ny nx (offsets : list R) (oy ox : R) (mc : R -> R) usfac outshape my mx nt np,
  shape inp = [ny; nx] -> (0 < ny)%Z -> (0 < nx)%Z -> usfac <> 0 ->
  match outshape with None => shape inp | Some s => s end = [my; mx] -> (0 < my)%Z -> (0 < mx)%Z ->
  offsets = [oy; ox] \/ (offsets = [] /\ oy = 0 /\ ox = 0) ->
  exists xs r, zoomnd env (amap RtoC inp) offsets mc usfac outshape nt np true true = Ok (Some xs, RealArr r) /\
    shape r = [my; mx] /\
    forall i j, (0 <= i < my)%Z -> (0 <= j < mx)%Z ->
      g2 r i j = trig_interpR [ny; nx] (get inp) [get xs [0%Z; i; j]; get xs [1%Z; i; j]].
Proof.
  intros env inp ny nx offs oy ox mc u o my mx nt np Hs Hy Hx Hu Ho Hmy Hmx Hoff.
  assert (E : zoomnd env (amap RtoC inp) offs mc u o nt np true true =
     zoom_on_pixel env (amap RtoC inp) [mc (IZR (ny - 1) / 2) + oy; mc (IZR (nx - 1) / 2) + ox] u o nt np true true).
  { unfold zoomnd, ndim. cbn [shape amap]. rewrite Hs. destruct Hoff as [->|[-> [-> ->]]]; reflexivity. }
  rewrite E.
  destruct (C17_zoom_on_pixel_2d_values env inp ny nx (mc (IZR (ny - 1) / 2) + oy) (mc (IZR (nx - 1) / 2) + ox) u o my mx nt np Hs Hy Hx Hu Ho Hmy Hmx) as [xs [r [A [B D]]]].
  exists xs, r. split; [exact A|]. split; [exact B|]. intros i j Hi Hj. apply (proj1 (D i j Hi Hj)).
Qed.
Print Assumptions C17_zoomnd_2d_values.

(** return_xouts only adds the coordinates, return_real takes the real part; for any input that a zoom accepts, in any of the three functions *)
Definition drop_xouts (r : res zoomres) : res zoomres := match r with Ok (_, a) => Ok (None, a) | Raise e => Raise e end.
Definition take_real (r : res zoomres) : res zoomres :=
  match r with Ok (x, CplxArr a) => Ok (x, RealArr (amap Re a)) | Ok (x, RealArr a) => Ok (x, RealArr a) | Raise e => Raise e end.
Lemma interp1d_real env data out_x dx nt np :
  fourier_interp1d env data out_x dx nt np true = (let! r := fourier_interp1d env data out_x dx nt np false in Ok (match r with CplxArr a => RealArr (amap Re a) | RealArr a => RealArr a end)).
Proof.
  unfold fourier_interp1d. destruct (get_ffts env nt np). destruct (shape data) as [|n [|? ?]]; auto. destruct (check_freqs [n]); auto. cbn [bind].
  destruct (shape out_x) as [|m [|? ?]]; auto.
  match goal with |- context [bind ?X _] => destruct X; auto end. cbn [bind]. destruct (check_fft [n]); auto.
Qed.
Lemma interp2d_real env data o nt np :
  fourier_interp2d env data o nt np true = (let! r := fourier_interp2d env data o nt np false in Ok (match r with CplxArr a => RealArr (amap Re a) | RealArr a => RealArr a end)).
Proof.
  unfold fourier_interp2d. destruct (get_ffts env nt np). destruct (check_outinds (ndim data) o); auto. cbn [bind].
  destruct (shape data) as [|ny [|nx [|? ?]]]; auto. destruct (check_fft [ny; nx]); auto. cbn [bind].
  destruct (axis_coords o 0); auto. cbn [bind]. destruct (axis_coords o 1); auto.
Qed.

Theorem C17_return_flags :
  forall env (inp : arr C) nt np usfac,
  (forall outsize offset rr, zoom1d env inp usfac outsize offset nt np false rr = drop_xouts (zoom1d env inp usfac outsize offset nt np true rr)) /\
  (forall outsize offset rx, zoom1d env inp usfac outsize offset nt np rx true = take_real (zoom1d env inp usfac outsize offset nt np rx false)) /\
  (forall coords outshape rr, zoom_on_pixel env inp coords usfac outshape nt np rr false = drop_xouts (zoom_on_pixel env inp coords usfac outshape nt np rr true)) /\
  (forall coords outshape rx, zoom_on_pixel env inp coords usfac outshape nt np true rx = take_real (zoom_on_pixel env inp coords usfac outshape nt np false rx)) /\
  (forall offsets mc outshape rr, zoomnd env inp offsets mc usfac outshape nt np rr false = drop_xouts (zoomnd env inp offsets mc usfac outshape nt np rr true)) /\
  (forall offsets mc outshape rx, zoomnd env inp offsets mc usfac outshape nt np true rx = take_real (zoomnd env inp offsets mc usfac outshape nt np false rx)).
Proof.
  intros env inp nt np u.
  assert (A : forall coords outshape rr, zoom_on_pixel env inp coords u outshape nt np rr false = drop_xouts (zoom_on_pixel env inp coords u outshape nt np rr true)).
  { intros coords o rr. unfold zoom_on_pixel. cbv zeta. destruct (negb _); auto. destruct (existsb _ _); auto.
    match goal with |- bind ?X _ = _ => destruct X; auto end. cbn [bind].
    destruct (shape inp) as [|n [|n' [|? ?]]]; auto; match goal with |- bind ?X _ = _ => destruct X; auto end. }
  assert (B : forall coords outshape rx, zoom_on_pixel env inp coords u outshape nt np true rx = take_real (zoom_on_pixel env inp coords u outshape nt np false rx)).
  { intros coords o rx. unfold zoom_on_pixel. cbv zeta. destruct (negb _); auto. destruct (existsb _ _); auto.
    match goal with |- bind ?X _ = _ => destruct X; auto end. cbn [bind].
    destruct (shape inp) as [|n [|n' [|? ?]]]; auto.
    - rewrite interp1d_real. match goal with |- bind (bind ?X _) _ = _ => destruct X as [[?|?]|?]; auto end.
    - rewrite interp2d_real. match goal with |- bind (bind ?X _) _ = _ => destruct X as [[?|?]|?]; auto end. }
  split; [|split; [|split; [exact A|split; [exact B|split]]]].
  - intros o off rr. unfold zoom1d. destruct (shape inp) as [|n [|? ?]]; auto. cbv zeta. destruct (pydiv _ _); auto. cbn [bind].
    destruct (linspace _ _ _); auto. cbn [bind]. destruct (fourier_interp1d _ _ _ _ _ _ _); auto.
  - intros o off rx. unfold zoom1d. destruct (shape inp) as [|n [|? ?]]; auto. cbv zeta. destruct (pydiv _ _); auto. cbn [bind].
    destruct (linspace _ _ _); auto. cbn [bind]. rewrite interp1d_real. destruct (fourier_interp1d _ _ _ _ _ _ _) as [[?|?]|?]; auto.
  - intros offs mc o rr. unfold zoomnd. destruct (_ && _); auto.
  - intros offs mc o rx. unfold zoomnd. destruct (_ && _); auto.
Qed.
Print Assumptions C17_return_flags.

(** an image zoom to zero rows or columns raises *)
Theorem C18_empty_2d_zoom_raises :
  forall env (inp : arr C) ny nx cy cx usfac my mx nt np rreal rx,
  shape inp = [ny; nx] -> (0 < ny)%Z -> (0 < nx)%Z -> usfac <> 0 -> (0 <= my)%Z -> (0 <= mx)%Z -> my = 0%Z \/ mx = 0%Z ->
  zoom_on_pixel env inp [cy; cx] usfac (Some [my; mx]) nt np rreal rx = Raise IndexError.
Proof.
  intros env inp ny nx cy cx u my mx nt np rr rx Hs Hy Hx Hu Hmy Hmx Hz. unfold zoom_on_pixel. rewrite Hs. cbn [length Nat.eqb negb existsb].
  destruct (Z.ltb_spec my 0); [lia|]. destruct (Z.ltb_spec mx 0); [lia|]. cbn [orb combine length Nat.eqb]. rewrite pydiv_ok by auto. cbn [bind].
  unfold fourier_interp2d. destruct (get_ffts env nt np) as [f g]. rewrite Hs. unfold ndim. rewrite Hs.
  assert (P : check_fft [ny; nx] = Ok tt).
  { unfold check_fft. replace (pos_shapeb [ny; nx]) with true; [reflexivity|]. symmetry. apply pos_shapeb_spec. repeat constructor; auto. }
  cbn -[check_fft]. rewrite P. cbn [bind].
  destruct (Z.leb_spec mx 0); cbn; auto. destruct (Z.leb_spec my 0); cbn; auto. lia.
Qed.
Print Assumptions C18_empty_2d_zoom_raises.

(** an outshape with fewer entries than the data have axes (a single number for an image, say) raises ValueError *)
Theorem C18_short_outshape_raises :
  forall env (inp : arr C) coordinates usfac m0 ms nt np rreal rx,
  (length (m0 :: ms) < ndim inp)%nat -> m0 <> 1%Z -> coordinates <> [] -> usfac <> 0 ->
  zoom_on_pixel env inp coordinates usfac (Some (m0 :: ms)) nt np rreal rx = Raise ValueError.
Proof.
  intros env inp coords u m0 ms nt np rr rx L N C U. unfold zoom_on_pixel, ndim in *.
  destruct (Nat.eqb_spec (length (m0 :: ms)) (length (shape inp))) as [E|_]; [lia|]. cbn [negb]. unfold wrong_outshape.
  destruct (Nat.ltb_spec (length (m0 :: ms)) (length (shape inp))) as [_|G]; [|lia]. destruct (Z.eqb_spec m0 1) as [|_]; [contradiction|].
  destruct coords as [|c cs]; [contradiction|]. cbn [length Nat.ltb Nat.leb negb andb]. destruct (existsb _ _); [reflexivity|].
  destruct (Req_EM_T u 0); [contradiction|reflexivity].
Qed.
Print Assumptions C18_short_outshape_raises.
Example C18_short_outshape_nonvacuous :
  zoom_on_pixel true (mk2 6 6 (fun y x => RtoC (IZR (y - x)))) [2; 3] 4 (Some [10%Z]) 1 false true false = Raise ValueError.
Proof. apply C18_short_outshape_raises; try discriminate; try lra. cbn. lia. Qed.
