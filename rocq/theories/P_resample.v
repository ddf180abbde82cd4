(** C99, C100: downsampling in steps; zooming and upsampling rolled or combined images *)
From Coq Require Import ZArith Lia List Reals Lra Bool.
From Coquelicot Require Import Complex.
From Verif Require Import Base NDim DFT Kernel Num Py M_fast_ffts M_shift M_scale M_zoom M_upsample M_downsample
  Spec L_shift L_scale L_zoom L_upsample L_downsample Sum2 Spec2 L_chi2shift L_fshift P_downsample P_zoom P_upsample.
Import ListNotations.
Open Scope R_scope.

(** *** C99: downsampling by a and then by b is downsampling by a*b *)
Lemma block_mean (img : arr num) (v : Z -> Z -> R) f a b : (0 < f)%Z ->
  (forall i j, (0 <= i < f)%Z -> (0 <= j < f)%Z -> g2 img (i + a * f)%Z (j + b * f)%Z = Fin (v (i + a * f)%Z (j + b * f)%Z)) ->
  nanmean (block_list img f a b) = Fin (sumR f (fun i => sumR f (fun j => v (i + a * f)%Z (j + b * f)%Z)) / IZR (f * f)).
Proof.
  intros Hf H. unfold nanmean.
  assert (Ec : IZR (nan_count (block_list img f a b)) = IZR (f * f)).
  { rewrite block_count by lia. rewrite (sumR_ext f _ (fun _ => IZR f)).
    - rewrite sumR_const, mult_IZR by lia. ring.
    - intros i Hi. rewrite (sumR_ext f _ (fun _ => 1)); [rewrite sumR_const by lia; ring|]. intros j Hj. rewrite H by auto. reflexivity. }
  apply eq_IZR in Ec. rewrite Ec. destruct (Z.eqb_spec (f * f) 0); [nia|]. f_equal. rewrite block_sum by lia. f_equal.
  apply sumR_ext. intros i Hi. apply sumR_ext. intros j Hj. rewrite H by auto. reflexivity.
Qed.

Theorem C99_downsampling_in_two_steps :
  forall (img : arr num) ys xs a b,
  shape img = [ys; xs] -> (0 <= ys)%Z -> (0 <= xs)%Z -> (0 < a)%Z -> (0 < b)%Z ->
  (forall y x, (0 <= y < ys)%Z -> (0 <= x < xs)%Z -> g2 img y x <> NaN) ->
  exists o1 o12 o, downsample img a nanmean = Ok o1 /\ downsample o1 b nanmean = Ok o12 /\ downsample img (a * b) nanmean = Ok o /\ aeq o12 o.
Proof.
  intros img ys xs a b Hs Hy Hx Ha Hb HF.
  destruct (downsample_ok img ys xs a nanmean Hs) as [o1 [E1 [S1 V1]]]; auto; try lia.
  assert (Qy : (0 <= ys / a)%Z) by (apply Z.div_pos; lia). assert (Qx : (0 <= xs / a)%Z) by (apply Z.div_pos; lia).
  destruct (downsample_ok o1 (ys / a) (xs / a) b nanmean S1) as [o12 [E2 [S2 V2]]]; auto; try lia.
  destruct (downsample_ok img ys xs (a * b) nanmean Hs) as [o [E3 [S3 V3]]]; auto; try nia.
  exists o1, o12, o. do 3 (split; [assumption|]). rewrite !Z.div_div in S2 by lia. split; [congruence|].
  rewrite S2. intros z Hz. destruct z as [|p [|q [|]]]; try (simpl in Hz; tauto). destruct Hz as [Hp [Hq _]].
  change (g2 o12 p q = g2 o p q). rewrite V2, V3.
  set (v := fun y x => nan0 (g2 img y x)).
  assert (FV : forall y x, (0 <= y < ys)%Z -> (0 <= x < xs)%Z -> g2 img y x = Fin (v y x)).
  { intros y x Ey Ex. unfold v. specialize (HF y x Ey Ex). destruct (g2 img y x); [reflexivity|contradiction]. }
  assert (BD : forall n i k, (0 <= k < n / (a * b))%Z -> (0 <= i < a * b)%Z -> (0 <= i + k * (a * b) < n)%Z).
  { intros n i k Hk Hi. assert (n / (a * b) * (a * b) <= n)%Z by (rewrite Z.mul_comm; apply Z.mul_div_le; nia). nia. }
  rewrite (block_mean img v (a * b) p q); [|nia|].
  2:{ intros i j Hi Hj. apply FV; apply BD; auto. }
  assert (M1 : forall k l, (0 <= k < b)%Z -> (0 <= l < b)%Z -> g2 o1 (k + p * b) (l + q * b) =
     Fin (sumR a (fun i => sumR a (fun j => v (i + (k + p * b) * a)%Z (j + (l + q * b) * a)%Z)) / IZR (a * a))).
  { intros k l Hk Hl. rewrite V1. apply block_mean; auto. intros i j Hi Hj.
    apply FV; [replace (i + (k + p * b) * a)%Z with ((i + k * a) + p * (a * b))%Z by ring|replace (j + (l + q * b) * a)%Z with ((j + l * a) + q * (a * b))%Z by ring]; apply BD; auto; nia. }
  rewrite (block_mean o1 (fun k l => sumR a (fun i => sumR a (fun j => v (i + k * a)%Z (j + l * a)%Z)) / IZR (a * a)) b p q); auto.
  f_equal. assert (Na : IZR (a * a) <> 0) by (apply IZR_neq0; nia). assert (Nb : IZR (b * b) <> 0) by (apply IZR_neq0; nia).
  assert (Nab : IZR (a * b * (a * b)) = IZR (a * a) * IZR (b * b)) by (rewrite <- mult_IZR; f_equal; ring). rewrite Nab.
  assert (SS : sumR (a * b) (fun i => sumR (a * b) (fun j => v (i + p * (a * b))%Z (j + q * (a * b))%Z)) =
     sumR b (fun k => sumR b (fun l => sumR a (fun i => sumR a (fun j => v (i + (k + p * b) * a)%Z (j + (l + q * b) * a)%Z))))).
  { rewrite (Z.mul_comm a b). rewrite (sumR_blocks b a) by lia. apply sumR_ext. intros k Hk.
    transitivity (sumR a (fun i => sumR b (fun l => sumR a (fun j => v (i + (k + p * b) * a)%Z (j + (l + q * b) * a)%Z)))); [|apply sumR_swap].
    apply sumR_ext. intros i Hi. rewrite (sumR_blocks b a) by lia. apply sumR_ext. intros l Hl. apply sumR_ext. intros j Hj. f_equal; ring. }
  rewrite SS. rewrite (sumR_ext b (fun i => sumR b (fun j => _ / IZR (a * a))) (fun k => sumR b (fun l => sumR a (fun i => sumR a (fun j => v (i + (k + p * b) * a)%Z (j + (l + q * b) * a)%Z))) * / IZR (a * a))).
  2:{ intros k Hk. unfold Rdiv. rewrite sumR_scal_r. reflexivity. }
  rewrite sumR_scal_r. field. auto.
Qed.
Print Assumptions C99_downsampling_in_two_steps.

(** with NaNs it is not: the blocks lose their weights *)
Theorem C99_with_nan_refuted :
  let img := mk2 4 4 (fun y x => if (y =? 0)%Z && (x <? 2)%Z then NaN else Fin (if (y <? 2)%Z && (x <? 2)%Z then 1 else 0)) in
  exists o1 o12 o, downsample img 2 nanmean = Ok o1 /\ downsample o1 2 nanmean = Ok o12 /\ downsample img 4 nanmean = Ok o /\
    g2 o12 0 0 = Fin (1 / 4) /\ g2 o 0 0 = Fin (1 / 7).
Proof.
  cbv zeta. do 3 eexists. split; [reflexivity|]. split; [reflexivity|]. split; [reflexivity|].
  split; (unfold g2; cbv - [Rplus Rmult Rdiv IZR Rinv]; f_equal; lra).
Qed.
Print Assumptions C99_with_nan_refuted.
Example C99_nonvacuous : let img := mk2 7 9 (fun y x => Fin (IZR (y * x))) in shape img = [7; 9]%Z /\ (forall y x, g2 img y x <> NaN).
Proof. cbv zeta. split; [reflexivity|]. intros y x. discriminate. Qed.

(** *** C100 *)
(** np.roll by (dy, dx) *)
Definition rolls_to (a a' : arr R) (ny nx dy dx : Z) : Prop :=
  shape a = [ny; nx] /\ shape a' = [ny; nx] /\
  forall y x, (0 <= y < ny)%Z -> (0 <= x < nx)%Z -> g2 a' ((y + dy) mod ny) ((x + dx) mod nx) = g2 a y x.

Lemma tiR_roll2 (a a' : arr R) ny nx dy dx p q : rolls_to a a' ny nx dy dx -> (0 < ny)%Z -> (0 < nx)%Z ->
  trig_interpR [ny; nx] (get a') [p + IZR dy; q + IZR dx] = trig_interpR [ny; nx] (get a) [p; q].
Proof.
  intros [_ [_ H]] Hy Hx. rewrite (tiR_ext [ny; nx] (get a) (fun y => get a' (modl [ny; nx] (addl y [dy; dx])))).
  - rewrite tiR_shift by (auto using pos2). reflexivity.
  - intros y Hin. apply inb2' in Hin. destruct Hin as [i [j [-> [Hi Hj]]]]. symmetry. apply H; auto.
Qed.

(** zooming in on the same place of a rolled image gives the same values, at coordinates moved along *)
Theorem C100_zoom_of_rolled_image :
  forall env (a a' : arr R) ny nx dy dx cy cx usfac outshape my mx nt np,
  rolls_to a a' ny nx dy dx -> (0 < ny)%Z -> (0 < nx)%Z -> usfac <> 0 ->
  match outshape with None => [ny; nx] | Some s => s end = [my; mx] -> (0 < my)%Z -> (0 < mx)%Z ->
  exists xs r xs' r', zoom_on_pixel env (amap RtoC a) [cy; cx] usfac outshape nt np true true = Ok (Some xs, RealArr r) /\
    zoom_on_pixel env (amap RtoC a') [cy + IZR dy; cx + IZR dx] usfac outshape nt np true true = Ok (Some xs', RealArr r') /\
    shape r = [my; mx] /\ aeq r' r /\
    forall i j, (0 <= i < my)%Z -> (0 <= j < mx)%Z ->
      get xs' [0%Z; i; j] = get xs [0%Z; i; j] + IZR dy /\ get xs' [1%Z; i; j] = get xs [1%Z; i; j] + IZR dx.
Proof.
  intros env a a' ny nx dy dx cy cx us osh my mx nt np HR Hy Hx Hu Ho Hmy Hmx. assert (HR' := HR). destruct HR' as [S1 [S2 _]].
  assert (Hp : pos_shape [ny; nx]) by (repeat constructor; auto).
  assert (O1 : oshape (amap RtoC a) osh = [my; mx]) by (unfold oshape; simpl; rewrite S1; exact Ho).
  assert (O2 : oshape (amap RtoC a') osh = [my; mx]) by (unfold oshape; simpl; rewrite S2; exact Ho).
  destruct (zoom2_ok env (amap RtoC a) ny nx cy cx us osh my mx nt np true true S1 Hy Hx Hu O1 Hmy Hmx) as [xs [r [H1 [H2 [H3 H4]]]]].
  destruct (zoom2_ok env (amap RtoC a') ny nx (cy + IZR dy) (cx + IZR dx) us osh my mx nt np true true S2 Hy Hx Hu O2 Hmy Hmx) as [xs' [r' [H1' [H2' [H3' H4']]]]].
  assert (G : forall c m d i, grid_at (c + IZR d) us m i = grid_at c us m i + IZR d) by (intros; unfold grid_at; ring).
  exists xs. eexists. exists xs'. eexists. split; [exact H1|]. split; [exact H1'|]. split; [exact H3|]. split.
  - split; [simpl; congruence|]. cbn [shape amap]. rewrite H3'. intros z Hz. apply inb2' in Hz. destruct Hz as [i [j [-> [Hi Hj]]]].
    destruct (H4 i j Hi Hj) as [_ [_ E]]. destruct (H4' i j Hi Hj) as [_ [_ E']]. simpl.
    change (Re (g2 r' i j) = Re (g2 r i j)). rewrite E, E', !G.
    change (get (amap RtoC a)) with (fun y => RtoC (get a y)). change (get (amap RtoC a')) with (fun y => RtoC (get a' y)).
    rewrite !interpN_realpart by auto. apply tiR_roll2; auto.
  - intros i j Hi Hj. destruct (H4 i j Hi Hj) as [E1 [E2 _]]. destruct (H4' i j Hi Hj) as [E1' [E2' _]].
    rewrite E1, E2, E1', E2', !G. auto.
Qed.
Print Assumptions C100_zoom_of_rolled_image.

(** upsampling a rolled image gives the upsampled image rolled by the upsampled number of pixels *)
Theorem C100_upsampling_of_rolled_image :
  forall env (a a' : arr R) ny nx dy dx u nt np xshift yshift,
  rolls_to a a' ny nx dy dx -> (0 < ny)%Z -> (0 < nx)%Z -> (1 <= u)%Z ->
  exists o o', upsample_image env (RtoCa a) (IZR u) ONone nt np xshift yshift = Ok o /\
    upsample_image env (RtoCa a') (IZR u) ONone nt np xshift yshift = Ok o' /\
    rolls_to (amap Re o) (amap Re o') (ny * u) (nx * u) (dy * u) (dx * u).
Proof.
  intros env a a' ny nx dy dx u nt np xs ys HR Hy Hx Hu. assert (HR' := HR). destruct HR' as [S1 [S2 _]].
  destruct (C20_upsampled_pixel_is_interpolant env a ny nx u ONone nt np xs ys (ny * u) (nx * u)) as [o [E1 [E2 E3]]]; auto; try nia; [left; auto|].
  destruct (C20_upsampled_pixel_is_interpolant env a' ny nx u ONone nt np xs ys (ny * u) (nx * u)) as [o' [E1' [E2' E3']]]; auto; try nia; [left; auto|].
  exists o, o'. split; [exact E1|]. split; [exact E1'|]. split; [exact E2|]. split; [exact E2'|].
  intros y x Iy Ix. change (Re (g2 o' ((y + dy * u) mod (ny * u)) ((x + dx * u) mod (nx * u))) = Re (g2 o y x)).
  rewrite E3, E3' by (auto; apply Z.mod_pos_bound; nia).
  assert (U : IZR u <> 0) by (apply IZR_neq0; lia).
  assert (M : forall n z d s, (0 < n)%Z -> (IZR ((z + d * u) mod (n * u)) - s) / IZR u + IZR n * IZR ((z + d * u) / (n * u)) = (IZR z - s) / IZR u + IZR d).
  { intros n z d s Hn. assert (D := Z.div_mod (z + d * u) (n * u) ltac:(nia)). apply (f_equal IZR) in D.
    rewrite !plus_IZR, !mult_IZR in D. set (q := IZR ((z + d * u) / (n * u))) in *. set (m := IZR ((z + d * u) mod (n * u))) in *.
    replace m with (IZR z + IZR d * IZR u - IZR n * IZR u * q) by lra. field. auto. }
  rewrite <- (tiR_period2 ny nx (get a') _ _ ((y + dy * u) / (ny * u)) ((x + dx * u) / (nx * u))) by auto.
  rewrite !M by auto. apply tiR_roll2; auto.
Qed.
Print Assumptions C100_upsampling_of_rolled_image.

(** both are linear in the image *)
Theorem C100_zoom_is_linear :
  forall env (a b c : arr R) s t ny nx cy cx usfac outshape my mx nt np,
  shape a = [ny; nx] -> shape b = [ny; nx] -> shape c = [ny; nx] ->
  (forall y x, (0 <= y < ny)%Z -> (0 <= x < nx)%Z -> g2 c y x = s * g2 a y x + t * g2 b y x) ->
  (0 < ny)%Z -> (0 < nx)%Z -> usfac <> 0 ->
  match outshape with None => [ny; nx] | Some s => s end = [my; mx] -> (0 < my)%Z -> (0 < mx)%Z ->
  exists xa ra xb rb xc rc,
    zoom_on_pixel env (amap RtoC a) [cy; cx] usfac outshape nt np true true = Ok (Some xa, RealArr ra) /\
    zoom_on_pixel env (amap RtoC b) [cy; cx] usfac outshape nt np true true = Ok (Some xb, RealArr rb) /\
    zoom_on_pixel env (amap RtoC c) [cy; cx] usfac outshape nt np true true = Ok (Some xc, RealArr rc) /\
    forall i j, (0 <= i < my)%Z -> (0 <= j < mx)%Z -> g2 rc i j = s * g2 ra i j + t * g2 rb i j.
Proof.
  intros env a b c s t ny nx cy cx us osh my mx nt np Sa Sb Sc HV Hy Hx Hu Ho Hmy Hmx.
  assert (Hp : pos_shape [ny; nx]) by (repeat constructor; auto).
  assert (ZZ : forall w : arr R, shape w = [ny; nx] -> exists xs r, zoom_on_pixel env (amap RtoC w) [cy; cx] us osh nt np true true = Ok (Some xs, RealArr r) /\
     forall i j, (0 <= i < my)%Z -> (0 <= j < mx)%Z -> g2 r i j = trig_interpR [ny; nx] (get w) [grid_at cy us my i; grid_at cx us mx j]).
  { intros w Sw. assert (O1 : oshape (amap RtoC w) osh = [my; mx]) by (unfold oshape; simpl; rewrite Sw; exact Ho).
    destruct (zoom2_ok env (amap RtoC w) ny nx cy cx us osh my mx nt np true true Sw Hy Hx Hu O1 Hmy Hmx) as [xs [r [H1 [_ [_ H4]]]]].
    exists xs. eexists. split; [exact H1|]. intros i j Hi Hj. destruct (H4 i j Hi Hj) as [_ [_ E]].
    change (Re (g2 r i j) = trig_interpR [ny; nx] (get w) [grid_at cy us my i; grid_at cx us mx j]). rewrite E.
    change (get (amap RtoC w)) with (fun y => RtoC (get w y)). apply interpN_realpart; auto. }
  destruct (ZZ a Sa) as [xa [ra [A1 A2]]]. destruct (ZZ b Sb) as [xb [rb [B1 B2]]]. destruct (ZZ c Sc) as [xc [rc [C1 C2]]].
  exists xa, ra, xb, rb, xc, rc. do 3 (split; [assumption|]). intros i j Hi Hj. rewrite A2, B2, C2 by auto.
  rewrite <- !tiR_scal, <- tiR_plus. apply tiR_ext. intros y Hin. apply inb2' in Hin. destruct Hin as [k [l [-> [Hk Hl]]]]. apply HV; auto.
Qed.
Print Assumptions C100_zoom_is_linear.

Theorem C100_upsampling_is_linear :
  forall env (a b c : arr R) s t ny nx u o nt np xshift yshift s1 s2,
  shape a = [ny; nx] -> shape b = [ny; nx] -> shape c = [ny; nx] ->
  (forall y x, (0 <= y < ny)%Z -> (0 <= x < nx)%Z -> g2 c y x = s * g2 a y x + t * g2 b y x) ->
  (0 < ny)%Z -> (0 < nx)%Z -> (1 <= u)%Z -> (0 <= s1)%Z -> (0 <= s2)%Z -> out_size ny nx u o s1 s2 ->
  exists oa ob oc, upsample_image env (RtoCa a) (IZR u) o nt np xshift yshift = Ok oa /\
    upsample_image env (RtoCa b) (IZR u) o nt np xshift yshift = Ok ob /\
    upsample_image env (RtoCa c) (IZR u) o nt np xshift yshift = Ok oc /\
    forall i j, (0 <= i < s1)%Z -> (0 <= j < s2)%Z -> Re (g2 oc i j) = s * Re (g2 oa i j) + t * Re (g2 ob i j).
Proof.
  intros env a b c s t ny nx u o nt np xs ys s1 s2 Sa Sb Sc HV Hy Hx Hu H1 H2 Ho.
  destruct (C20_upsampled_pixel_is_interpolant env a ny nx u o nt np xs ys s1 s2 Sa Hy Hx Hu H1 H2 Ho) as [oa [A1 [_ A2]]].
  destruct (C20_upsampled_pixel_is_interpolant env b ny nx u o nt np xs ys s1 s2 Sb Hy Hx Hu H1 H2 Ho) as [ob [B1 [_ B2]]].
  destruct (C20_upsampled_pixel_is_interpolant env c ny nx u o nt np xs ys s1 s2 Sc Hy Hx Hu H1 H2 Ho) as [oc [C1 [_ C2]]].
  exists oa, ob, oc. do 3 (split; [assumption|]). intros i j Hi Hj. rewrite A2, B2, C2 by auto.
  rewrite <- !tiR_scal, <- tiR_plus. apply tiR_ext. intros y Hin. apply inb2' in Hin. destruct Hin as [k [l [-> [Hk Hl]]]]. apply HV; auto.
Qed.
Print Assumptions C100_upsampling_is_linear.

Example C100_nonvacuous :
  let a := mk2 5 4 (fun y x => IZR (3 * y + x * x)) in
  let a' := mk2 5 4 (fun y x => g2 a ((y - 2) mod 5) ((x + 7) mod 4)) in
  rolls_to a a' 5 4 2 (-7) /\ (exists y x, g2 a' y x <> g2 a y x) /\ out_size 5 4 3 ONone 15 12.
Proof.
  cbv zeta. split; [|split].
  - split; [reflexivity|]. split; [reflexivity|]. intros y x Hy Hx. unfold g2; cbn [get mk2].
    replace (((y + 2) mod 5 - 2) mod 5)%Z with y by (Z.to_euclidean_division_equations; lia).
    replace (((x + -7) mod 4 + 7) mod 4)%Z with x by (Z.to_euclidean_division_equations; lia). reflexivity.
  - refine (ex_intro _ 0%Z (ex_intro _ 0%Z _)). unfold g2; cbn. lra.
  - left. repeat split; reflexivity.
Qed.
