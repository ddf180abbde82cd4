(** Properties C12, C15, C18, C19, C20, C23, C24, continued *)
From Coq Require Import ZArith Lia List Reals Lra Bool.
From Coquelicot Require Import Complex.
From Verif Require Import Base NDim DFT Kernel Num Py M_fast_ffts M_shift M_scale M_zoom M_upsample M_downsample Spec L_shift L_scale L_zoom L_upsample
  L_downsample P_scale P_zoom P_upsample P_downsample.
Import ListNotations.
Open Scope R_scope.

(** *** C12: between two nodes of data_x the index is interpolated linearly *)
Lemma bracket_between n (xp : Z -> R) (i : Z) x : (0 <= i)%Z -> (i + 1 < Z.of_nat n)%Z ->
  (forall a b, (0 <= a)%Z -> (a < b)%Z -> (b < Z.of_nat n)%Z -> xp a < xp b) -> xp i <= x < xp (i + 1)%Z -> bracket n xp x = i.
Proof.
  induction n as [|n IH]; intros H0 Hi Hinc Hx; [lia|]. simpl.
  assert (Hc : (Z.of_nat n = i + 1 \/ i + 1 < Z.of_nat n)%Z) by lia. destruct Hc as [E|E].
  - rewrite E. destruct (Rle_dec (xp (i + 1)%Z) x) as [H|H]; [lra|].
    destruct n as [|n]; [lia|]. simpl. replace (Z.of_nat n) with i by lia.
    destruct (Rle_dec (xp i) x) as [K|K]; [auto|lra].
  - destruct (Rle_dec (xp (Z.of_nat n)) x) as [H|H].
    + exfalso. assert (xp (i + 1)%Z < xp (Z.of_nat n)) by (apply Hinc; lia). lra.
    + apply IH; auto. intros; apply Hinc; lia.
Qed.

Theorem C12_data_x_between_nodes :
  forall env (data : arr R) n (dx out_x : arr R) m nt np,
  shape data = [n] -> (0 < n)%Z -> shape dx = [n] -> shape out_x = [m] ->
  (forall a b, (0 <= a)%Z -> (a < b)%Z -> (b < n)%Z -> g1 dx a < g1 dx b) ->
  exists r, fourier_interp1d env (re_img data) out_x (Some dx) nt np true = Ok (RealArr r) /\ shape r = [m] /\
    forall j i, (0 <= j < m)%Z -> (0 <= i)%Z -> (i + 1 < n)%Z -> g1 dx i <= g1 out_x j <= g1 dx (i + 1)%Z ->
      g1 r j = trig_interpR [n] (get data) [IZR i + (g1 out_x j - g1 dx i) / (g1 dx (i + 1)%Z - g1 dx i)].
Proof.
  intros env data n dx out_x m nt np Hs Hn Hd Hm Hinc.
  destruct (fourier_interp1d_dx_ok env (re_img data) n out_x dx m nt np true Hs Hn Hm Hd) as [r [H1 [H2 H3]]].
  eexists. split; [exact H1|]. split; [exact H2|]. intros j i Hj Hi Hi1 Hx.
  assert (Hlt : g1 dx i < g1 dx (i + 1)%Z) by (apply Hinc; lia).
  assert (E : np_interp n (g1 dx) IZR (g1 out_x j) = IZR i + (g1 out_x j - g1 dx i) / (g1 dx (i + 1)%Z - g1 dx i)).
  { destruct (Req_dec (g1 out_x j) (g1 dx (i + 1)%Z)) as [K|K].
    - rewrite K. rewrite np_interp_node by (auto; lia). rewrite plus_IZR. field. lra.
    - unfold np_interp. rewrite (bracket_between _ _ i) by (auto; try lia; try lra; intros; apply Hinc; lia).
      destruct (Z.ltb_spec i 0); [lia|]. destruct (Z.eqb_spec i (n - 1)); [lia|]. rewrite plus_IZR. field. lra. }
  unfold g1 at 1. simpl get. rewrite H3 by auto. rewrite E. symmetry.
  rewrite <- interpN_realpart by (auto; repeat constructor; auto). reflexivity.
Qed.
Print Assumptions C12_data_x_between_nodes.

(** *** C15: return_xouts only decides whether the coordinates are returned too *)
Definition drop_xouts (r : res zoomres) : res zoomres :=
  match r with Ok (_, x) => Ok (None, x) | Raise e => Raise e end.
Theorem C15_return_xouts_flag :
  forall env (inp : arr C) usfac nt np rreal,
  (forall outsize offset, zoom1d env inp usfac outsize offset nt np false rreal = drop_xouts (zoom1d env inp usfac outsize offset nt np true rreal)) /\
  (forall coords outshape, zoom_on_pixel env inp coords usfac outshape nt np rreal false =
     drop_xouts (zoom_on_pixel env inp coords usfac outshape nt np rreal true)) /\
  (forall offsets mc outshape, zoomnd env inp offsets mc usfac outshape nt np rreal false =
     drop_xouts (zoomnd env inp offsets mc usfac outshape nt np rreal true)).
Proof.
  intros env inp u nt np rr.
  assert (Z : forall coords outshape, zoom_on_pixel env inp coords u outshape nt np rr false =
     drop_xouts (zoom_on_pixel env inp coords u outshape nt np rr true)).
  { intros coords os. unfold zoom_on_pixel.
    destruct (negb _); [reflexivity|]. destruct (existsb _ _); [reflexivity|].
    destruct (if Nat.eqb _ _ then _ else _) as [uu|ee]; [|reflexivity]. cbn [bind].
    destruct (shape inp) as [|a [|b [|c l]]]; try reflexivity.
    - match goal with |- context [bind ?x _] => destruct x as [?|?]; reflexivity end.
    - match goal with |- context [bind ?x _] => destruct x as [?|?]; reflexivity end. }
  split; [|split; [exact Z|]].
  - intros os off. unfold zoom1d. destruct (shape inp) as [|a [|b l]]; try reflexivity.
    destruct (pydiv _ _) as [h|?]; [|reflexivity]. cbn [bind]. destruct (linspace _ _ _) as [x|?]; [|reflexivity]. cbn [bind].
    destruct (fourier_interp1d _ _ _ _ _ _ _) as [y|?]; reflexivity.
  - intros offs mc os. unfold zoomnd. destruct (_ && _); [reflexivity|]. apply Z.
Qed.
Print Assumptions C15_return_xouts_flag.

(** *** C18: bad sizes, factors and ranks *)
Theorem C18_zoom_bad_arguments :
  forall env (inp : arr C) nt np rreal rx,
  (ndim inp <> 1%nat -> forall u os off, zoom1d env inp u os off nt np rx rreal = Raise ValueError) /\
  (ndim inp = 1%nat -> forall os off, zoom1d env inp 0 os off nt np rx rreal = Raise ZeroDivisionError) /\
  (ndim inp = 1%nat -> forall u m off, u <> 0 -> (m < 0)%Z -> zoom1d env inp u (Some m) off nt np rx rreal = Raise ValueError) /\
  (forall u coords os, length os = ndim inp -> (exists m, In m os /\ (m < 0)%Z) ->
     zoom_on_pixel env inp coords u (Some os) nt np rreal rx = Raise ValueError) /\
  (forall coords os, length os = ndim inp -> (forall m, In m os -> (0 <= m)%Z) -> inp.(shape) <> [] -> coords <> [] ->
     zoom_on_pixel env inp coords 0 (Some os) nt np rreal rx = Raise ZeroDivisionError) /\
  (forall u coords os, (2 < ndim inp)%nat -> u <> 0 -> length os = ndim inp -> (forall m, In m os -> (0 <= m)%Z) ->
     zoom_on_pixel env inp coords u (Some os) nt np rreal rx = Raise NotImplementedError).
Proof.
  intros env inp nt np rr rx. unfold ndim. repeat split.
  - intros H u os off. unfold zoom1d. destruct (shape inp) as [|a [|b l]]; auto. simpl in H. congruence.
  - intros H os off. unfold zoom1d. destruct (shape inp) as [|a [|b l]]; try discriminate H.
    unfold pydiv. destruct (Req_EM_T 0 0); [reflexivity|lra].
  - intros H u m off Hu Hm. unfold zoom1d. destruct (shape inp) as [|a [|b l]]; try discriminate H.
    rewrite pydiv_ok by auto. cbn [bind]. unfold linspace. destruct (Z.ltb_spec m 0); [reflexivity|lia].
  - intros u coords os Hl [m [Hin Hm]]. unfold zoom_on_pixel. rewrite Hl, Nat.eqb_refl. cbn [negb].
    replace (existsb _ os) with true; [reflexivity|]. symmetry. apply existsb_exists. exists m. split; auto. apply Z.ltb_lt; auto.
  - intros coords os Hl Hp Hne Hc. unfold zoom_on_pixel. rewrite Hl, Nat.eqb_refl. cbn [negb].
    replace (existsb _ os) with false.
    2:{ symmetry. apply not_true_is_false. intros K. apply existsb_exists in K. destruct K as [m [K1 K2]]. apply Z.ltb_lt in K2. specialize (Hp m K1). lia. }
    destruct (shape inp) as [|a l]; [congruence|]. destruct coords as [|c cs]; [congruence|]. cbn [combine length Nat.eqb].
    unfold pydiv. destruct (Req_EM_T 0 0); [reflexivity|lra].
  - intros u coords os H2 Hu Hl Hp. unfold zoom_on_pixel. rewrite Hl, Nat.eqb_refl. cbn [negb].
    replace (existsb _ os) with false.
    2:{ symmetry. apply not_true_is_false. intros K. apply existsb_exists in K. destruct K as [m [K1 K2]]. apply Z.ltb_lt in K2. specialize (Hp m K1). lia. }
    rewrite pydiv_ok by auto. cbn [bind].
    destruct (Nat.eqb _ 0); cbn [bind]; destruct (shape inp) as [|a [|b [|c l]]]; simpl in H2; try lia; reflexivity.
Qed.
Print Assumptions C18_zoom_bad_arguments.

(** *** C19/C20 for every real factor and every kind of size argument *)
(** number of elements of np.arange(v) *)
Definition arange_count (v : R) (s : Z) : Prop := (0 <= s)%Z /\ (v <= IZR s) /\ (s = 0%Z \/ IZR s - 1 < v).
Lemma arange_count_len v s : arange_count v s -> arange_len v = s.
Proof.
  intros [H0 [H1 H2]]. unfold arange_len. destruct (ceilR_spec v) as [C1 C2].
  destruct H2 as [->|H2].
  - assert (IZR (ceilR v) < IZR 1) by (simpl in *; lra). apply lt_IZR in H. lia.
  - assert (A : IZR (ceilR v) < IZR s + 1) by lra. assert (B : IZR s < IZR (ceilR v) + 1) by lra.
    rewrite <- plus_IZR in A, B. apply lt_IZR in A. apply lt_IZR in B. lia.
Qed.
(** the integer frequency of DFT bin k: 0, 1, .., then the negative ones *)
Definition signed_freq (n k : Z) : R := if (k <? (n + 1) / 2)%Z then IZR k else IZR (k - n).
Definition size_arg (o : option R) (n : Z) : R := match o with None => IZR n | Some v => v end.

Theorem C19_dftups_any_factor :
  forall (inp : arr C) nr nc nor noc u roff coff s1 s2,
  shape inp = [nr; nc] -> (0 < nr)%Z -> (0 < nc)%Z -> u <> 0 ->
  arange_count (size_arg nor nr) s1 -> arange_count (size_arg noc nc) s2 ->
  exists out, dftups inp nor noc u roff coff = Ok out /\ shape out = [s1; s2] /\
    forall r c, (0 <= r < s1)%Z -> (0 <= c < s2)%Z ->
      g2 out r c = sumC nr (fun k => sumC nc (fun l => Cmult (g2 inp k l)
        (cis (- (2 * PI * (signed_freq nr k * (IZR r - roff) / (IZR nr * u) + signed_freq nc l * (IZR c - coff) / (IZR nc * u))))))).
Proof.
  intros inp nr nc nor noc u roff coff s1 s2 Hs Hr Hc Hu H1 H2.
  destruct (dftups_ok inp nr nc nor noc u roff coff Hs Hr Hc Hu) as [out [E1 [E2 E3]]].
  exists out. split; [exact E1|]. split.
  { rewrite E2. unfold dft_len. fold (size_arg nor nr) (size_arg noc nc). rewrite (arange_count_len _ s1 H1), (arange_count_len _ s2 H2). reflexivity. }
  intros r c _ _. rewrite E3. unfold ups_val.
  assert (S : forall n k, (0 < n)%Z -> (0 <= k < n)%Z -> fftfreq n k = signed_freq n k / IZR n).
  { intros n k Hn Hk. unfold fftfreq, signed_freq. destruct (Z.ltb_spec k ((n + 1) / 2)); [rewrite fidx_lo by lia|rewrite fidx_hi by lia]; reflexivity. }
  assert (Hr' : IZR nr <> 0) by (apply IZR_neq0; lia). assert (Hc' : IZR nc <> 0) by (apply IZR_neq0; lia).
  rewrite (sumC_ext nc _ (fun l => sumC nr (fun k => Cmult (g2 inp k l)
        (cis (- (2 * PI * (signed_freq nr k * (IZR r - roff) / (IZR nr * u) + signed_freq nc l * (IZR c - coff) / (IZR nc * u)))))))).
  - apply sumC_swap.
  - intros l Hl. rewrite <- sumC_scal_r. apply sumC_ext. intros k Hk. rewrite (S nr k), (S nc l) by auto. unfold g2.
    replace (- (2 * PI * (signed_freq nr k * (IZR r - roff) / (IZR nr * u) + signed_freq nc l * (IZR c - coff) / (IZR nc * u))))
      with (- (2 * PI) * (signed_freq nr k / IZR nr * ((IZR r - roff) / u)) + - (2 * PI) * (signed_freq nc l / IZR nc * ((IZR c - coff) / u)))
      by (field; auto).
    rewrite cis_plus. ring.
Qed.
Print Assumptions C19_dftups_any_factor.

Theorem C20_any_factor :
  forall env (image : arr R) ny nx u o nt np xshift yshift v1 v2 s1 s2,
  shape image = [ny; nx] -> (0 < ny)%Z -> (0 < nx)%Z -> u <> 0 ->
  (o = ONone /\ v1 = IZR ny * u /\ v2 = IZR nx * u \/ o = OSeq [v1; v2] \/ o = ONum v1 /\ v1 = v2) ->
  arange_count v1 s1 -> arange_count v2 s2 ->
  exists out, upsample_image env (RtoCa image) u o nt np xshift yshift = Ok out /\ shape out = [s1; s2] /\
    forall r c, (0 <= r < s1)%Z -> (0 <= c < s2)%Z ->
      Re (g2 out r c) = trig_interpR [ny; nx] (get image) [(IZR r - yshift) / u; (IZR c - xshift) / u].
Proof.
  intros env image ny nx u o nt np xs ys v1 v2 s1 s2 Hs Hy Hx Hu Ho H1 H2.
  destruct (upsample_image_ok env (RtoCa image) ny nx u o nt np xs ys v1 v2) as [out [E1 [E2 E3]]]; auto.
  exists out. split; [exact E1|]. split.
  { rewrite E2, (arange_count_len _ s1 H1), (arange_count_len _ s2 H2). reflexivity. }
  intros r c _ _. rewrite E3. rewrite <- interpN_realpart by (auto; repeat constructor; auto). reflexivity.
Qed.
Print Assumptions C20_any_factor.

(** *** C23/C24: what the default estimator is, and padding for an arbitrary estimator *)
Definition valid_values (l : list num) : list R := flat_map (fun x => match x with Fin r => [r] | NaN => [] end) l.
Theorem C23_default_estimator_is_mean_of_valid :
  forall l : list num,
  (valid_values l = [] -> nanmean l = NaN) /\
  (valid_values l <> [] -> nanmean l = Fin (fold_right Rplus 0 (valid_values l) / INR (length (valid_values l)))).
Proof.
  intros l. assert (C : nan_count l = Z.of_nat (length (valid_values l))).
  { induction l as [|[r|] l IH]; auto. change (nan_count (Fin r :: l)) with (1 + nan_count l)%Z.
    change (length (valid_values (Fin r :: l))) with (S (length (valid_values l))). rewrite IH. lia. }
  assert (S : nan_sum l = fold_right Rplus 0 (valid_values l)).
  { clear C. induction l as [|[r|] l IH]; simpl; auto. rewrite IH. reflexivity. }
  unfold nanmean. rewrite C, S. split; intros H.
  - rewrite H. reflexivity.
  - destruct (Z.eqb_spec (Z.of_nat (length (valid_values l))) 0) as [E|E].
    + destruct (valid_values l); [congruence|simpl in E; lia].
    + rewrite <- INR_IZR_INZ. reflexivity.
Qed.
Print Assumptions C23_default_estimator_is_mean_of_valid.

Theorem C24_default_pads_with_nan :
  forall B (img : arr num) f axis ax n (est : list num -> B),
  axis_means (ndim img) axis ax -> nth ax (shape img) 0%Z = n -> (0 <= n)%Z -> (0 < f)%Z ->
  exists out, downsample_axis true img f axis est false = Ok out /\
    shape out = upd ax ((n + f - 1) / f)%Z (shape img) /\
    forall i, inb (shape out) i ->
      get out i = est (map (fun k => if (nth ax i 0 * f + k <? n)%Z then get img (upd ax (nth ax i 0 * f + k)%Z i) else NaN) (zrange f)).
Proof.
  intros B img f axis ax n est Ha Hn H0 Hf.
  assert (Hax := axis_means_norm _ _ _ Ha).
  destruct (axis_pad img f axis ax n est Hax Hn H0 Hf) as [out [H1 [H2 H3]]].
  exists out. split; [exact H1|]. split; [exact H2|]. intros i Hi.
  assert (Hlen : length i = length (shape img)) by (apply inb_length in Hi; rewrite H2, upd_length in Hi; auto).
  assert (Hlt := norm_axis_ok _ _ _ Hax). unfold ndim in Hlt.
  assert (Hb : (0 <= nth ax i 0 < (n + f - 1) / f)%Z).
  { rewrite H2 in Hi. clear - Hi Hlt Hlen. revert ax i Hi Hlt Hlen. generalize ((n + f - 1) / f)%Z as v. generalize (shape img) as sh.
    induction sh as [|a sh IH]; intros v [|ax] [|x i] Hi Hlt Hlen; simpl in *; try lia; try tauto.
    destruct Hi as [_ Hi]. apply (IH v ax i); auto; lia. }
  rewrite H3 by auto. f_equal. apply map_ext. intros k. rewrite (Z.add_comm k). reflexivity.
Qed.
Print Assumptions C24_default_pads_with_nan.

Example C12_2_nonvacuous :
  let dx := mk1 3 (fun j => IZR (j * j)) in let out_x := mk1 1 (fun _ => 2) in
  shape dx = [3]%Z /\ g1 dx 1%Z <= g1 out_x 0%Z <= g1 dx 2%Z /\
  (forall a b, (0 <= a)%Z -> (a < b)%Z -> (b < 3)%Z -> g1 dx a < g1 dx b).
Proof.
  cbn zeta. split; [reflexivity|]. split; [unfold g1; simpl; lra|].
  intros a b H1 H2 H3. unfold g1; simpl. apply IZR_lt. nia.
Qed.
Example C19_2_nonvacuous : arange_count (size_arg (Some (5/2)) 4) 3 /\ arange_count (size_arg None 4) 4.
Proof. unfold arange_count, size_arg. repeat split; try lia; try lra; right; lra. Qed.
Example C23_2_nonvacuous : valid_values [NaN; Fin 1; Fin 2] = [1; 2] /\ valid_values [NaN; NaN] = [].
Proof. split; reflexivity. Qed.
