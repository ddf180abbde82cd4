(** Properties C19-C21: dftups, upsample_image, dftups1d, odddftups *)
From Coq Require Import ZArith Lia List Reals Lra Bool.
From Coquelicot Require Import Complex.
From Verif Require Import Base NDim DFT Kernel Num Py M_fast_ffts M_shift M_scale M_upsample Spec L_shift L_scale L_upsample.
Import ListNotations.
Open Scope R_scope.

(** *** Specification: zero-padded spectrum and plain 2-D DFT (independent of the model) *)
(** position on one axis: the ceil(n/2) non-negative frequencies come first, the floor(n/2) negative ones last,
    zeros in between *)
Definition pad_src (n N K : Z) : option Z :=
  if (K <? (n + 1) / 2)%Z then Some K else if (N - n / 2 <=? K)%Z then Some (K - N + n)%Z else None.
Definition pad_spectrum (a : arr C) (nr nc u : Z) : arr C :=
  mk2 (u * nr) (u * nc) (fun K L =>
    match pad_src nr (u * nr) K, pad_src nc (u * nc) L with
    | Some k, Some l => g2 a k l
    | _, _ => RtoC 0
    end).
Definition fft2_at (a : arr C) (N M r c : Z) : C :=
  sumC N (fun K => sumC M (fun L => Cmult (g2 a K L) (cis (- (2 * PI * (IZR K * IZR r / IZR N + IZR L * IZR c / IZR M)))))).

(** *** C19 *)
Theorem C19_dftups_is_padded_dft_window :
  forall (inp : arr C) nr nc nor noc u roff coff,
  shape inp = [nr; nc] -> (0 < nr)%Z -> (0 < nc)%Z -> (1 <= u)%Z -> (0 <= nor)%Z -> (0 <= noc)%Z ->
  exists out, dftups inp (Some (IZR nor)) (Some (IZR noc)) (IZR u) (IZR roff) (IZR coff) = Ok out /\
    shape out = [nor; noc] /\
    forall r c, (0 <= r < nor)%Z -> (0 <= c < noc)%Z ->
      g2 out r c = fft2_at (pad_spectrum inp nr nc u) (u * nr) (u * nc)
                     ((r - roff) mod (u * nr)) ((c - coff) mod (u * nc)).
Proof.
  intros inp nr nc nor noc u roff coff Hs Hr Hc Hu Hno Hco.
  destruct (dftups_ok inp nr nc (Some (IZR nor)) (Some (IZR noc)) (IZR u) (IZR roff) (IZR coff)) as [out [E1 [E2 E3]]]; auto;
    [apply IZR_neq0; lia|].
  exists out. split; [exact E1|]. split; [rewrite E2; unfold dft_len; rewrite !arange_len_IZR by auto; reflexivity|].
  intros r c Hrr Hcc. rewrite E3. unfold ups_val, fft2_at.
  set (R0 := ((r - roff) mod (u * nr))%Z). set (C0 := ((c - coff) mod (u * nc))%Z).
  assert (HNr : (nr <= u * nr)%Z) by nia. assert (HNc : (nc <= u * nc)%Z) by nia.
  rewrite (sumC_ext (u * nr) _ (fun K => Cmult
     (match embed_idx nr (u * nr) K with
      | Some k => sumC nc (fun l => Cmult (get inp [k; l]) (cis (- (2 * PI * (IZR (fidx nc l) * IZR C0 / IZR (u * nc))))))
      | None => RtoC 0 end)
     (cis (- (2 * PI * (IZR K * IZR R0 / IZR (u * nr))))))).
  - rewrite embed_sum by auto.
    rewrite (sumC_ext nc _ (fun l => sumC nr (fun k => Cmult (Cmult (cis (- (2 * PI) * (fftfreq nr k * ((IZR r - IZR roff) / IZR u)))) (get inp [k; l]))
              (cis (- (2 * PI) * (fftfreq nc l * ((IZR c - IZR coff) / IZR u))))))) by (intros l Hl; rewrite sumC_scal_r; reflexivity).
    rewrite sumC_swap. apply sumC_ext. intros k Hk. rewrite <- sumC_scal_r. apply sumC_ext. intros l Hl.
    assert (P : forall n R0' s off, (0 < n)%Z -> R0' = ((s - off) mod (u * n))%Z -> forall j,
       cis (- (2 * PI) * (fftfreq n j * ((IZR s - IZR off) / IZR u))) = cis (- (2 * PI * (IZR (fidx n j) * IZR R0' / IZR (u * n))))).
    { intros n R0' s off Hn HR j. assert (HN : (0 < u * n)%Z) by nia.
      assert (Em := Z_div_mod_eq_full (s - off) (u * n)). rewrite <- HR in Em.
      set (q := ((s - off) / (u * n))%Z) in *.
      apply (cis_congr _ _ (- (fidx n j * q))). unfold fftfreq.
      assert (ER : IZR s - IZR off = IZR (u * n) * IZR q + IZR R0') by (rewrite <- mult_IZR, <- plus_IZR, <- minus_IZR; f_equal; exact Em).
      rewrite ER, opp_IZR, !mult_IZR. field. split; apply IZR_neq0; lia. }
    rewrite (P nr R0 r roff Hr eq_refl k), (P nc C0 c coff Hc eq_refl l). ring.
  - intros K HK. unfold pad_spectrum, g2; simpl. change (pad_src nr (u * nr) K) with (embed_idx nr (u * nr) K).
    destruct (embed_idx nr (u * nr) K) as [k|].
    + rewrite <- (embed_sum nc (u * nc) (fun l => get inp [k; l])) by auto. rewrite <- sumC_scal_r. apply sumC_ext. intros L HL.
      change (pad_src nc (u * nc) L) with (embed_idx nc (u * nc) L).
      destruct (embed_idx nc (u * nc) L); rewrite cis_m2pi_plus; ring.
    + rewrite Cmult_0_l. apply sumC_const0. intros L HL. apply Cmult_0_l.
Qed.
Print Assumptions C19_dftups_is_padded_dft_window.

Example C19_nonvacuous : let inp := mk2 3 4 (fun y x => (IZR (y + x), IZR (y * x))) in
  shape inp = [3; 4]%Z /\ (1 <= 5)%Z /\ pad_src 3 15 14 = Some 2%Z /\ pad_src 3 15 1 = Some 1%Z /\ pad_src 3 15 7 = None.
Proof. repeat split; lia. Qed.

(** *** C20 *)
(** output size of upsample_image for its three ways of passing output_size *)
Definition out_size (ny nx u : Z) (o : osize) (s1 s2 : Z) : Prop :=
  o = ONone /\ s1 = (ny * u)%Z /\ s2 = (nx * u)%Z \/
  o = OSeq [IZR s1; IZR s2] \/
  o = ONum (IZR s1) /\ s2 = s1.

Theorem C20_upsampled_pixel_is_interpolant :
  forall env (image : arr R) ny nx u o nt np xshift yshift s1 s2,
  shape image = [ny; nx] -> (0 < ny)%Z -> (0 < nx)%Z -> (1 <= u)%Z -> (0 <= s1)%Z -> (0 <= s2)%Z ->
  out_size ny nx u o s1 s2 ->
  exists out, upsample_image env (RtoCa image) (IZR u) o nt np xshift yshift = Ok out /\
    shape out = [s1; s2] /\
    forall r c, (0 <= r < s1)%Z -> (0 <= c < s2)%Z ->
      Re (g2 out r c) = trig_interpR [ny; nx] (get image) [(IZR r - yshift) / IZR u; (IZR c - xshift) / IZR u].
Proof.
  intros env image ny nx u o nt np xs ys s1 s2 Hs Hy Hx Hu H1 H2 Ho.
  destruct (upsample_image_ok env (RtoCa image) ny nx (IZR u) o nt np xs ys (IZR s1) (IZR s2)) as [out [E1 [E2 E3]]]; auto.
  - apply IZR_neq0; lia.
  - destruct Ho as [[-> [-> ->]]|[->|[-> ->]]]; [left; rewrite !mult_IZR|right; left|right; right]; auto.
  - exists out. split; [exact E1|]. split; [rewrite E2, !arange_len_IZR by auto; reflexivity|].
    intros r c _ _. rewrite E3. apply interpN_realpart; auto. repeat constructor; auto.
Qed.
Print Assumptions C20_upsampled_pixel_is_interpolant.

Theorem C20_original_samples_preserved :
  forall env (image : arr C) ny nx u nt np,
  shape image = [ny; nx] -> (0 < ny)%Z -> (0 < nx)%Z -> (1 <= u)%Z ->
  exists out, upsample_image env image (IZR u) ONone nt np 0 0 = Ok out /\
    shape out = [ny * u; nx * u]%Z /\
    forall r c, (0 <= r < ny)%Z -> (0 <= c < nx)%Z -> g2 out (u * r) (u * c) = g2 image r c.
Proof.
  intros env image ny nx u nt np Hs Hy Hx Hu.
  assert (Hu' : IZR u <> 0) by (apply IZR_neq0; lia).
  destruct (upsample_image_ok env image ny nx (IZR u) ONone nt np 0 0 (IZR ny * IZR u) (IZR nx * IZR u)) as [out [E1 [E2 E3]]]; auto.
  exists out. split; [exact E1|]. split; [rewrite E2, <- !mult_IZR, !arange_len_IZR by nia; reflexivity|].
  intros r c Hr Hc. rewrite E3, !mult_IZR.
  replace [(IZR u * IZR r - 0) / IZR u; (IZR u * IZR c - 0) / IZR u] with (toR [r; c]).
  - rewrite interpN_int by (auto; repeat constructor; auto). rewrite modl_small by (simpl; auto). reflexivity.
  - unfold toR; simpl. f_equal; [field; auto|]. f_equal. field; auto.
Qed.
Print Assumptions C20_original_samples_preserved.

Theorem C20_factor_one_is_identity :
  forall env (image : arr C) ny nx nt np,
  shape image = [ny; nx] -> (0 < ny)%Z -> (0 < nx)%Z ->
  exists out, upsample_image env image 1 ONone nt np 0 0 = Ok out /\ aeq out image.
Proof.
  intros env image ny nx nt np Hs Hy Hx.
  destruct (C20_original_samples_preserved env image ny nx 1 nt np) as [out [E1 [E2 E3]]]; auto; [lia|].
  exists out. split; [exact E1|]. split; [rewrite E2, Hs; do 2 f_equal; [lia|f_equal; lia]|].
  intros i Hi. rewrite E2 in Hi. apply inb2 in Hi. destruct Hi as [y [x [-> [H1 H2]]]].
  specialize (E3 y x). rewrite !Z.mul_1_l in E3. apply E3; lia.
Qed.
Print Assumptions C20_factor_one_is_identity.

(** "returns an image with all reals" (docstring, upsample.py:96): true for odd-sized real images ... *)
Theorem C20_odd_real_image_gives_real_output :
  forall env (image : arr R) ny nx u o nt np xshift yshift s1 s2,
  shape image = [ny; nx] -> (0 < ny)%Z -> (0 < nx)%Z -> Z.odd ny = true -> Z.odd nx = true ->
  (1 <= u)%Z -> (0 <= s1)%Z -> (0 <= s2)%Z -> out_size ny nx u o s1 s2 ->
  exists out, upsample_image env (RtoCa image) (IZR u) o nt np xshift yshift = Ok out /\
    forall r c, (0 <= r < s1)%Z -> (0 <= c < s2)%Z -> Im (g2 out r c) = 0.
Proof.
  intros env image ny nx u o nt np xs ys s1 s2 Hs Hy Hx Hoy Hox Hu H1 H2 Ho.
  destruct (upsample_image_ok env (RtoCa image) ny nx (IZR u) o nt np xs ys (IZR s1) (IZR s2)) as [out [E1 [E2 E3]]]; auto.
  - apply IZR_neq0; lia.
  - destruct Ho as [[-> [-> ->]]|[->|[-> ->]]]; [left; rewrite !mult_IZR|right; left|right; right]; auto.
  - exists out. split; [exact E1|]. intros r c _ _. rewrite E3. unfold interpN. rewrite Im_sumNC.
    apply sumNR_const0. intros y Hyy. unfold RtoCa; simpl get.
    assert (Hd : Im (Dn [ny; nx] (subR (toR y) [(IZR r - ys) / IZR u; (IZR c - xs) / IZR u])) = 0).
    { apply Dn_real_odd; [repeat constructor; auto|repeat constructor; auto|].
      apply inb_length in Hyy. unfold subR, toR. rewrite zipw_length, map_length, Hyy. reflexivity. }
    unfold Cmult, RtoC, Im in *; simpl in *. rewrite Hd. ring.
Qed.
Print Assumptions C20_odd_real_image_gives_real_output.

(** ... and refuted for even-sized ones *)
Theorem C20_all_reals_refuted :
  exists (image : arr R) out, shape image = [1; 2]%Z /\
    (forall env nt np, exists o, upsample_image env (RtoCa image) 2 ONone nt np 0 0 = Ok o /\ aeq o out) /\
    g2 out 0 1 = Ci.
Proof.
  set (image := mk2 1 2 (fun y x => 1 - 2 * IZR x)).
  destruct (upsample_image_ok false (RtoCa image) 1 2 2 ONone 1 true 0 0 (IZR 1 * 2) (IZR 2 * 2)) as [out [E1 [E2 E3]]];
    auto; try lia; try lra.
  exists image, out. split; [reflexivity|]. split.
  - intros env nt np.
    destruct (upsample_image_ok env (RtoCa image) 1 2 2 ONone nt np 0 0 (IZR 1 * 2) (IZR 2 * 2)) as [o [F1 [F2 F3]]];
      auto; try lia; try lra.
    exists o. split; [exact F1|]. split; [congruence|]. intros i Hi. rewrite F2 in Hi. apply inb2 in Hi.
    destruct Hi as [y [x [-> _]]]. specialize (E3 y x). specialize (F3 y x). unfold g2 in *. congruence.
  - rewrite E3. unfold interpN. rewrite sumNC_cons.
    assert (V : forall y x, Dn [1; 2]%Z (subR (toR [y; x]) [(IZR 0 - 0) / 2; (IZR 1 - 0) / 2]) =
       Cmult (D1 1 (IZR y - (0 - 0) / 2)) (D1 2 (IZR x - (1 - 0) / 2))).
    { intros y x. unfold subR, toR; simpl. rewrite Dn_cons by (repeat constructor; lia). rewrite Dn_1 by lia. reflexivity. }
    change (sumC 1 ?f) with (Cplus (RtoC 0) (f 0%Z)). cbv beta. rewrite sumNC_cons.
    change (sumC 2 ?f) with (Cplus (Cplus (RtoC 0) (f 0%Z)) (f 1%Z)). cbv beta. rewrite !sumNC_nil, !V.
    unfold D1. change (sumC 1 ?f) with (Cplus (RtoC 0) (f 0%Z)). change (sumC 2 ?f) with (Cplus (Cplus (RtoC 0) (f 0%Z)) (f 1%Z)).
    cbv beta.
    unfold fftfreq. change (fidx 1 0) with 0%Z. change (fidx 2 0) with 0%Z. change (fidx 2 1) with (-1)%Z.
    replace (2 * PI * (0 / 1 * (0 - (0 - 0) / 2))) with 0 by field.
    replace (2 * PI * (0 / 2 * (0 - (1 - 0) / 2))) with 0 by field.
    replace (2 * PI * (0 / 2 * (1 - (1 - 0) / 2))) with 0 by field.
    replace (2 * PI * (-1 / 2 * (0 - (1 - 0) / 2))) with (PI / 2) by field.
    replace (2 * PI * (-1 / 2 * (1 - (1 - 0) / 2))) with (- (PI / 2)) by field.
    rewrite cis_0, cis_opp_conj. assert (EI : cis (PI / 2) = Ci) by (unfold cis, Ci; rewrite cos_PI2, sin_PI2; reflexivity).
    rewrite EI. unfold RtoCa, image; simpl. unfold Ci, Cconj, RtoC, Cmult, Cplus; simpl. f_equal; field.
Qed.
Print Assumptions C20_all_reals_refuted.

Example C20_nonvacuous : let image := mk2 5 3 (fun y x => IZR (y * y - x)) in
  shape image = [5; 3]%Z /\ Z.odd 5 = true /\ Z.odd 3 = true /\ out_size 5 3 4 ONone 20 12 /\ out_size 5 3 4 (ONum 7) 7 7.
Proof. repeat split; unfold out_size; auto. Qed.

(** *** C21 *)
(** the DFT sum with centred frequencies -n//2..(n-1)//2 evaluated at a real coordinate t *)
Definition centred_dft (n : Z) (a : Z -> C) (t : R) : C :=
  sumC n (fun j => let m := (j - n / 2)%Z in Cmult (a (m mod n)%Z) (cis (- (2 * PI * (IZR m * t / IZR n))))).

Theorem C21_dftups1d_is_dft_sum :
  forall (inp : arr C) n u m offset,
  shape inp = [n] -> (0 < n)%Z -> u <> 0 -> (0 <= m)%Z ->
  exists out, dftups1d inp u (Some (IZR m)) offset false = Ok (None, out) /\ shape out = [m] /\
    (forall j, (0 <= j < m)%Z -> g1 out j = centred_dft n (g1 inp) ((IZR j + offset) / u)) /\
    (m <> 1%Z -> exists xs, dftups1d inp u (Some (IZR m)) offset true = Ok (Some xs, out) /\ shape xs = [m] /\
       forall j, (0 <= j < m)%Z -> g1 xs j = (IZR j + offset) / u).
Proof.
  intros inp n u m offset Hs Hn Hu Hm. unfold dftups1d. rewrite Hs, arange_len_IZR by auto.
  destruct (Z.eqb_spec n 0); [lia|].
  eexists. split; [reflexivity|]. split; [reflexivity|]. split.
  - intros j Hj. unfold g1 at 1; simpl. unfold centred_dft.
    rewrite (sumC_ext n _ (fun k => (fun f => Cmult (g1 inp (f mod n)%Z) (cis (- (2 * PI * (IZR f * ((IZR j + offset) / u) / IZR n))))) (fidx n k))).
    + apply (sum_fidx_centred n (fun f => Cmult (g1 inp (f mod n)%Z) (cis (- (2 * PI * (IZR f * ((IZR j + offset) / u) / IZR n)))))); auto.
    + intros k Hk. cbv beta. f_equal.
      * destruct (fidx_congr n k) as [q Hq]. rewrite Hq, Z.mod_add, Z.mod_small by lia. reflexivity.
      * f_equal. unfold fftfreq. field. split; [auto|apply IZR_neq0; lia].
  - intros Hm1. destruct (Z.eqb_spec m 1); [contradiction|]. eexists. split; [reflexivity|]. split; reflexivity.
Qed.
Print Assumptions C21_dftups1d_is_dft_sum.

(** a single coordinate is returned as a scalar; an empty line and arrays that are not lines are refused *)
Theorem C21_dftups1d_other_cases :
  forall (inp : arr C) u offset,
  (forall n, shape inp = [n] -> (0 < n)%Z ->
     exists xs out, dftups1d inp u (Some 1) offset true = Ok (Some xs, out) /\ shape xs = [] /\ get xs [] = (0 + offset) / u /\ shape out = [1%Z]) /\
  (shape inp = [0%Z] -> forall outsize rx, dftups1d inp u outsize offset rx = Raise ZeroDivisionError) /\
  (List.length (shape inp) <> 1%nat -> forall outsize rx, dftups1d inp u outsize offset rx = Raise ValueError).
Proof.
  intros inp u offset. unfold dftups1d. split; [|split].
  - intros n Hs Hn. rewrite Hs. replace (Some 1) with (Some (IZR 1)) by reflexivity. rewrite arange_len_IZR by lia. destruct (Z.eqb_spec n 0); [lia|].
    eexists. eexists. split; [reflexivity|]. split; [reflexivity|]. split; reflexivity.
  - intros -> outsize rx. reflexivity.
  - intros H outsize rx. destruct (shape inp) as [|a [|b l]]; try reflexivity. exfalso. apply H. reflexivity.
Qed.
Print Assumptions C21_dftups1d_other_cases.

(** applied to the inverse FFT of an image line it is the interpolant of that line *)
Theorem C21_dftups1d_of_inverse_fft_interpolates :
  forall (env : bool) nt np (line : arr R) n u m offset,
  shape line = [n] -> (0 < n)%Z -> u <> 0 -> (0 <= m)%Z ->
  exists out, dftups1d (snd (get_ffts env nt np) (RtoCa line)) u (Some (IZR m)) offset false = Ok (None, out) /\
    forall j, (0 <= j < m)%Z -> Re (g1 out j) = trig_interpR [n] (get line) [(IZR j + offset) / u].
Proof.
  intros env nt np line n u m offset Hs Hn Hu Hm.
  destruct (get_ffts_inv env nt np (RtoCa line)) as [H1 H2].
  unfold dftups1d. rewrite H1. simpl shape. rewrite Hs, arange_len_IZR by auto. destruct (Z.eqb_spec n 0); [lia|].
  eexists. split; [reflexivity|]. intros j Hj. unfold g1 at 1; simpl.
  rewrite <- interpN_realpart by (auto; repeat constructor; auto). f_equal.
  rewrite <- interp1d_val by auto. apply sumC_ext. intros k Hk. unfold g1. rewrite H2. simpl shape. rewrite Hs. reflexivity.
Qed.
Print Assumptions C21_dftups1d_of_inverse_fft_interpolates.

Theorem C21_odddftups_equals_dftups :
  forall (inp : arr C) nor noc usfac roff coff,
  (shape inp = [] \/ (exists n, shape inp = [n]) \/ (2 < length (shape inp))%nat \/ pos_shape (shape inp)) ->
  match odddftups inp nor noc usfac roff coff, dftups inp nor noc usfac roff coff with
  | Ok a, Ok b => aeq a b
  | Raise e, Raise f => e = f
  | _, _ => False
  end.
Proof.
  intros inp nor noc usfac roff coff Hs.
  destruct (shape inp) as [|nr [|nc [|z sh]]] eqn:E.
  - unfold odddftups, dftups. rewrite E. reflexivity.
  - unfold odddftups, dftups. rewrite E. reflexivity.
  - assert (Hp : (0 < nr)%Z /\ (0 < nc)%Z).
    { destruct Hs as [H|[[n H]|[H|H]]]; try discriminate; [simpl in H; lia|].
      apply pos_shape_cons in H. destruct H as [H1 H]. apply pos_shape_cons in H. tauto. }
    destruct Hp as [Hr Hc]. destruct (Req_dec usfac 0) as [->|Hu].
    + unfold odddftups, dftups. rewrite E.
      destruct (Req_EM_T (IZR nc * 0) 0); [|exfalso; lra]. destruct (Req_EM_T (IZR nr * 0) 0); [reflexivity|exfalso; lra].
    + destruct (odddftups_ok inp nr nc nor noc usfac roff coff) as [o1 [A1 [A2 A3]]]; auto.
      destruct (dftups_ok inp nr nc nor noc usfac roff coff) as [o2 [B1 [B2 B3]]]; auto.
      rewrite A1, B1. split; [congruence|]. intros i Hi. rewrite A2 in Hi. apply inb2 in Hi.
      destruct Hi as [y [x [-> _]]]. specialize (A3 y x). specialize (B3 y x). unfold g2 in *. congruence.
  - unfold odddftups, dftups. rewrite E. reflexivity.
Qed.
Print Assumptions C21_odddftups_equals_dftups.

Example C21_nonvacuous : let inp := mk1 5 (fun x => (IZR x, 1)) in shape inp = [5]%Z /\ (0 < 5)%Z /\ 3 <> 0.
Proof. repeat split; try lia; lra. Qed.

(** the remaining cases: what [upsample_image] raises (an output_size with fewer than two entries, an image that is not 2-D or is empty, a factor 0) *)
Theorem C20_other_cases :
  forall env (image : arr C) u o nt np xshift yshift,
  let call := upsample_image env image u o nt np xshift yshift in
  ((exists n, In n (shape image) /\ (n <= 0)%Z) -> call = Raise ValueError) /\
  ((forall n, In n (shape image) -> (0 < n)%Z) ->
   match o with
   | ONone => (List.length (shape image) < 2)%nat -> call = Raise IndexError
   | OSeq l => (List.length l < 2)%nat -> call = Raise IndexError
   | ONum _ => (List.length (shape image) < 2)%nat -> call = Raise ValueError
   end /\
   ((2 < List.length (shape image))%nat -> match o with OSeq l => (2 <= List.length l)%nat | _ => True end -> call = Raise ValueError) /\
   ((List.length (shape image) = 2)%nat -> u = 0 -> match o with OSeq l => (2 <= List.length l)%nat | _ => True end -> call = Raise ZeroDivisionError)).
Proof.
  intros env image u o nt np xs ys call. subst call.
  assert (E : forall b : bool, pos_shapeb (shape image) = b -> upsample_image env image u o nt np xs ys = upsample_image env image u o nt np xs ys) by reflexivity.
  unfold upsample_image. destruct (get_ffts env nt np) as [f g] eqn:G.
  assert (SG : shape (g image) = shape image).
  { assert (Q : g = snd (get_ffts env nt np)) by (rewrite G; reflexivity). rewrite Q. clear. unfold get_ffts. destruct env, np; cbn; try reflexivity; destruct (_ =? _)%Z; reflexivity. }
  unfold check_fft. clear E. split.
  - intros [n [H N]]. destruct (pos_shapeb (shape image)) eqn:E; [|reflexivity]. exfalso.
    apply pos_shapeb_spec in E. unfold pos_shape in E. rewrite Forall_forall in E. specialize (E n H). cbn in E. lia.
  - intros H. assert (E : pos_shapeb (shape image) = true). { apply pos_shapeb_spec. unfold pos_shape. apply Forall_forall. intros n Hn. apply H, Hn. }
    rewrite E. cbn [bind]. split; [|split].
    + destruct o as [|l|v]; intros L.
      * destruct (shape image) as [|n1 [|n2 sh]]; cbn in *; try reflexivity; lia.
      * destruct l as [|a [|b l]]; cbn in *; try reflexivity; lia.
      * unfold dftups. cbn [bind fst snd]. rewrite SG. destruct (shape image) as [|n1 [|n2 sh]]; cbn in *; try reflexivity; lia.
    + intros L Ho. destruct o as [|l|v].
      * unfold dftups. rewrite SG. destruct (shape image) as [|n1 [|n2 [|n3 sh]]]; cbn in *; try lia; reflexivity.
      * unfold dftups. rewrite SG. destruct l as [|a [|b l]]; cbn in *; try lia. destruct (shape image) as [|n1 [|n2 [|n3 sh]]]; cbn in *; try lia; reflexivity.
      * unfold dftups. rewrite SG. destruct (shape image) as [|n1 [|n2 [|n3 sh]]]; cbn in *; try lia; reflexivity.
    + intros L -> Ho. assert (Z0 : forall n, Req_EM_T (IZR n * 0) 0 = left (Rmult_0_r (IZR n))).
      { intros n. destruct (Req_EM_T _ _) as [q|q]; [f_equal; apply Eqdep_dec.UIP_dec, Req_EM_T|exfalso; apply q; lra]. }
      destruct o as [|l|v].
      * unfold dftups. rewrite SG. destruct (shape image) as [|n1 [|n2 [|n3 sh]]]; cbn -[IZR] in *; try lia. rewrite Z0. reflexivity.
      * unfold dftups. rewrite SG. destruct l as [|a [|b l]]; cbn in Ho; try lia. destruct (shape image) as [|n1 [|n2 [|n3 sh]]]; cbn -[IZR] in *; try lia. rewrite Z0. reflexivity.
      * unfold dftups. rewrite SG. destruct (shape image) as [|n1 [|n2 [|n3 sh]]]; cbn -[IZR] in *; try lia. rewrite Z0. reflexivity.
Qed.
Print Assumptions C20_other_cases.
