(** C63, C64: header_overlap *)
From Coq Require Import ZArith Lia List Reals Lra Bool String.
From Verif Require Import Base NDim Num Py M_fits Spec7 L_fits.
Import ListNotations.
Open Scope R_scope.

Lemma Rabs_eq_0 x : Rabs x = 0 -> x = 0.
Proof. intros H. destruct (Req_dec x 0); auto. apply Rabs_pos_lt in H0. lra. Qed.
Lemma ceil_pos x : 0 <= x -> (0 <= ceilR x)%Z.
Proof. intros H. assert (Q := ceilR_spec x). assert (0 <= IZR (ceilR x)) by lra. apply le_IZR in H0. exact H0. Qed.
Lemma axis_size_spec l1 h1 l2 h2 lo hi c : c <> 0 -> lo <= hi \/ h2 < l1 \/ h1 < l2 ->
  exists n, axis_size l1 h1 l2 h2 lo hi c = Ok n /\ (0 <= n)%Z /\ (h2 < l1 \/ h1 < l2 -> n = 0%Z) /\
    (~ (h2 < l1 \/ h1 < l2) -> hi - lo <= IZR n * Rabs c < hi - lo + Rabs c).
Proof.
  intros Hc Hl. unfold axis_size. destruct (Rlt_dec h2 l1) as [A|A]; [exists 0%Z; split; [reflexivity|]; split; [lia|]; split; [reflexivity|tauto]|].
  destruct (Rlt_dec h1 l2) as [B|B]; [exists 0%Z; split; [reflexivity|]; split; [lia|]; split; [reflexivity|tauto]|].
  destruct (Req_EM_T c 0); [contradiction|]. eexists. split; [reflexivity|]. split; [apply ceil_pos, Rabs_pos|]. split; [intros [Q|Q]; contradiction|]. intros _.
  assert (Hl' : lo <= hi) by tauto. assert (P : 0 < Rabs c) by (apply Rabs_pos_lt; auto).
  assert (Q := ceilR_spec (Rabs ((hi - lo) / c))). replace (Rabs ((hi - lo) / c)) with ((hi - lo) / Rabs c) in *.
  2:{ unfold Rdiv. rewrite Rabs_mult, Rabs_inv, (Rabs_right (hi - lo)) by lra. reflexivity. }
  assert (E : hi - lo = (hi - lo) / Rabs c * Rabs c) by (field; lra).
  split.
  - rewrite E at 1. apply Rmult_le_compat_r; lra.
  - replace (hi - lo + Rabs c) with (((hi - lo) / Rabs c + 1) * Rabs c) by (field; lra). apply Rmult_lt_compat_r; lra.
Qed.

Lemma overlap_iff w1 nx1 ny1 w2 nx2 ny2 a :
  let l1 := Rmin (first_corner w1 a) (last_corner w1 nx1 ny1 a) in let h1 := Rmax (first_corner w1 a) (last_corner w1 nx1 ny1 a) in
  let l2 := Rmin (first_corner w2 a) (last_corner w2 nx2 ny2 a) in let h2 := Rmax (first_corner w2 a) (last_corner w2 nx2 ny2 a) in
  overlapping w1 nx1 ny1 w2 nx2 ny2 a <-> ~ (h2 < l1 \/ h1 < l2).
Proof.
  intros l1 h1 l2 h2. assert (A : l1 <= h1) by (apply Rle_trans with (first_corner w1 a); [apply Rmin_l|apply Rmax_l]).
  assert (B : l2 <= h2) by (apply Rle_trans with (first_corner w2 a); [apply Rmin_l|apply Rmax_l]).
  split.
  - intros [x [H1 H2]]. apply spans_minmax in H1. apply spans_minmax in H2. fold l1 h1 in H1. fold l2 h2 in H2. lra.
  - intros H. exists (Rmax l1 l2). rewrite !spans_minmax. fold l1 h1 l2 h2. clearbody l1 h1 l2 h2. unfold Rmax. destruct (Rle_dec l1 l2); lra.
Qed.

Lemma along_ok WCS h1 h2 w1 w2 nx1 ny1 nx2 ny2 sep ov (P : axis -> R -> Prop) :
  sees WCS h1 w1 nx1 ny1 -> sees WCS h2 w2 nx2 ny2 -> unwrapped sep w1 nx1 ny1 -> unwrapped sep w2 nx2 ny2 ->
  same_kind w1 w2 -> (forall a, scale_of w1 a <> 0 /\ scale_of w2 a <> 0) ->
  (ov = "union"%string /\ P = (fun a x => spans w1 nx1 ny1 a x \/ spans w2 nx2 ny2 a x) \/
   ov = "intersection"%string /\ P = (fun a x => spans w1 nx1 ny1 a x /\ spans w2 nx2 ny2 a x)) ->
  exists h, header_overlap WCS h1 h2 sep ov = Ok h /\ (forall a, along w1 nx1 ny1 w2 nx2 ny2 P h a) /\
    (forall k, ~ In k wcs_keys -> hget h k = hget h1 k) /\ (forall k, In k cd_keys -> hget h k = Raise KeyError).
Proof.
  intros S1 S2 U1 U2 K Hs Hov.
  assert (F1 : forall a, wfc sep w1 a = first_corner w1 a) by (intros []; [apply wrap_id, U1|reflexivity]).
  assert (F2 : forall a, wfc sep w2 a = first_corner w2 a) by (intros []; [apply wrap_id, U2|reflexivity]).
  assert (G1 : forall a, wlc sep w1 nx1 ny1 a = last_corner w1 nx1 ny1 a) by (intros []; [apply wrap_id, U1|reflexivity]).
  assert (G2 : forall a, wlc sep w2 nx2 ny2 a = last_corner w2 nx2 ny2 a) by (intros []; [apply wrap_id, U2|reflexivity]).
  set (l1 := fun a => Rmin (first_corner w1 a) (last_corner w1 nx1 ny1 a)). set (u1 := fun a => Rmax (first_corner w1 a) (last_corner w1 nx1 ny1 a)).
  set (l2 := fun a => Rmin (first_corner w2 a) (last_corner w2 nx2 ny2 a)). set (u2 := fun a => Rmax (first_corner w2 a) (last_corner w2 nx2 ny2 a)).
  assert (L1 : forall a, l1 a <= u1 a) by (intros a; apply Rle_trans with (first_corner w1 a); [apply Rmin_l|apply Rmax_l]).
  assert (L2 : forall a, l2 a <= u2 a) by (intros a; apply Rle_trans with (first_corner w2 a); [apply Rmin_l|apply Rmax_l]).
  assert (D : forall a, let d := coord a (pixel_scales w1 w2) in Rabs d = Rmin (Rabs (scale_of w1 a)) (Rabs (scale_of w2 a)) /\ 0 < d * scale_of w1 a /\ d <> 0).
  { intros a d. unfold d. destruct (Hs a) as [A1 A2]. apply Rabs_pos_lt in A1 as B1. apply Rabs_pos_lt in A2 as B2. rewrite pixel_scales_spec by auto.
    set (m := Rmin _ _). assert (Hm : 0 < m) by (unfold m, Rmin; destruct (Rle_dec _ _); auto). split; [apply sign_mag; [auto|lra]|].
    unfold np_sign. destruct (Rlt_dec (scale_of w1 a) 0); [|destruct (Rlt_dec 0 (scale_of w1 a)); [|lra]]; (split; [nra|]); nra. }
  assert (Hov' : ov = "union"%string \/ ov = "intersection"%string) by tauto.
  assert (AS : forall a, exists n, axis_size (l1 a) (u1 a) (l2 a) (u2 a) (lo_of ov (l1 a) (l2 a)) (hi_of ov (u1 a) (u2 a)) (coord a (pixel_scales w1 w2)) = Ok n /\ (0 <= n)%Z /\
     (u2 a < l1 a \/ u1 a < l2 a -> n = 0%Z) /\ (~ (u2 a < l1 a \/ u1 a < l2 a) -> hi_of ov (u1 a) (u2 a) - lo_of ov (l1 a) (l2 a) <= IZR n * Rabs (coord a (pixel_scales w1 w2)) < hi_of ov (u1 a) (u2 a) - lo_of ov (l1 a) (l2 a) + Rabs (coord a (pixel_scales w1 w2)))).
  { intros a. apply axis_size_spec; [apply D|]. specialize (L1 a). specialize (L2 a). destruct Hov' as [-> | ->]; cbn [lo_of hi_of String.eqb Ascii.eqb Bool.eqb]; unfold lo_of, hi_of; cbn.
    - left. apply Rle_trans with (l1 a); [apply Rmin_l|]. apply Rle_trans with (u1 a); [auto|apply Rmax_l].
    - unfold Rmax, Rmin. destruct (Rle_dec (l1 a) (l2 a)), (Rle_dec (u1 a) (u2 a)); lra. }
  destruct (AS AX1) as [n1 [E1 R1]]. destruct (AS AX2) as [n2 [E2 R2]].
  destruct (header_overlap_ok WCS h1 h2 w1 w2 nx1 ny1 nx2 ny2 sep ov n1 n2 S1 S2 Hov') as [h [E [C [O X]]]].
  { unfold asize, alo1, ahi1. rewrite F1, F2, G1, G2. exact E1. }
  { unfold asize, alo1, ahi1. rewrite F1, F2, G1, G2. exact E2. }
  exists h. split; [exact E|]. split; [|split; assumption]. intros a. specialize (C a). unfold alo1, ahi1 in C. rewrite F1, F2, G1, G2 in C.
  fold (l1 a) (u1 a) (l2 a) (u2 a) in C. destruct (D a) as [D1 [D2 D3]].
  assert (R : let n := match a with AX1 => n1 | AX2 => n2 end in (0 <= n)%Z /\
     (u2 a < l1 a \/ u1 a < l2 a -> n = 0%Z) /\ (~ (u2 a < l1 a \/ u1 a < l2 a) -> hi_of ov (u1 a) (u2 a) - lo_of ov (l1 a) (l2 a) <= IZR n * Rabs (coord a (pixel_scales w1 w2)) < hi_of ov (u1 a) (u2 a) - lo_of ov (l1 a) (l2 a) + Rabs (coord a (pixel_scales w1 w2))))
    by (destruct a; assumption). cbv zeta in R.
  exists ((lo_of ov (l1 a) (l2 a) + hi_of ov (u1 a) (u2 a)) / 2), (coord a (pixel_scales w1 w2)), (match a with AX1 => n1 | AX2 => n2 end).
  destruct R as [R0 [Ra Rb]]. assert (OI := overlap_iff w1 nx1 ny1 w2 nx2 ny2 a). cbv zeta in OI. fold (l1 a) (u1 a) (l2 a) (u2 a) in OI.
  split; [exact C|]. split; [exact R0|]. split; [exact D1|]. split; [exact D2|]. split.
  - intros Q. apply Ra. destruct (Rlt_dec (u2 a) (l1 a)); [tauto|]. destruct (Rlt_dec (u1 a) (l2 a)); tauto.
  - intros Q. apply OI in Q. exists (lo_of ov (l1 a) (l2 a)), (hi_of ov (u1 a) (u2 a)). split; [|split; [reflexivity|apply Rb; exact Q]].
    specialize (L1 a). specialize (L2 a). unfold extent.
    assert (SP1 : forall x, spans w1 nx1 ny1 a x <-> l1 a <= x <= u1 a) by (intros x; apply spans_minmax).
    assert (SP2 : forall x, spans w2 nx2 ny2 a x <-> l2 a <= x <= u2 a) by (intros x; apply spans_minmax).
    destruct Hov as [[-> ->] | [-> ->]]; unfold lo_of, hi_of; cbn [String.eqb Ascii.eqb Bool.eqb]; setoid_rewrite SP1; setoid_rewrite SP2;
      unfold Rmin, Rmax; destruct (Rle_dec (l1 a) (l2 a)), (Rle_dec (u1 a) (u2 a)); repeat split; intros; try lra.
Qed.

(** *** C63: the box *)
Theorem C63_union_covers_both :
  forall WCS h1 h2 w1 w2 nx1 ny1 nx2 ny2 sep,
  sees WCS h1 w1 nx1 ny1 -> sees WCS h2 w2 nx2 ny2 -> unwrapped sep w1 nx1 ny1 -> unwrapped sep w2 nx2 ny2 ->
  same_kind w1 w2 -> (forall a, scale_of w1 a <> 0 /\ scale_of w2 a <> 0) ->
  exists h, header_overlap WCS h1 h2 sep "union" = Ok h /\
    (forall a, along w1 nx1 ny1 w2 nx2 ny2 (fun a x => spans w1 nx1 ny1 a x \/ spans w2 nx2 ny2 a x) h a) /\
    forall a, overlapping w1 nx1 ny1 w2 nx2 ny2 a -> forall x, spans w1 nx1 ny1 a x \/ spans w2 nx2 ny2 a x -> covers h a x.
Proof.
  intros WCS h1 h2 w1 w2 nx1 ny1 nx2 ny2 sep S1 S2 U1 U2 K Hs.
  destruct (along_ok WCS h1 h2 w1 w2 nx1 ny1 nx2 ny2 sep "union" _ S1 S2 U1 U2 K Hs (or_introl (conj eq_refl eq_refl))) as [h [E [A _]]].
  exists h. split; [exact E|]. split; [exact A|]. intros a Ho x Hx. destruct (A a) as [c [d [n [C [_ [_ [_ [_ B]]]]]]]]. destruct (B Ho) as [lo [hi [[_ [_ X]] [Ec W]]]].
  exists c, d, n, (IZR n / 2). split; [exact C|]. specialize (X x Hx). rewrite Ec. apply Rabs_le. lra.
Qed.
Print Assumptions C63_union_covers_both.
Theorem C63_intersection_covers_common :
  forall WCS h1 h2 w1 w2 nx1 ny1 nx2 ny2 sep,
  sees WCS h1 w1 nx1 ny1 -> sees WCS h2 w2 nx2 ny2 -> unwrapped sep w1 nx1 ny1 -> unwrapped sep w2 nx2 ny2 ->
  same_kind w1 w2 -> (forall a, scale_of w1 a <> 0 /\ scale_of w2 a <> 0) ->
  exists h, header_overlap WCS h1 h2 sep "intersection" = Ok h /\
    (forall a, along w1 nx1 ny1 w2 nx2 ny2 (fun a x => spans w1 nx1 ny1 a x /\ spans w2 nx2 ny2 a x) h a) /\
    forall a, overlapping w1 nx1 ny1 w2 nx2 ny2 a -> forall x, spans w1 nx1 ny1 a x /\ spans w2 nx2 ny2 a x -> covers h a x.
Proof.
  intros WCS h1 h2 w1 w2 nx1 ny1 nx2 ny2 sep S1 S2 U1 U2 K Hs.
  destruct (along_ok WCS h1 h2 w1 w2 nx1 ny1 nx2 ny2 sep "intersection" _ S1 S2 U1 U2 K Hs (or_intror (conj eq_refl eq_refl))) as [h [E [A _]]].
  exists h. split; [exact E|]. split; [exact A|]. intros a Ho x Hx. destruct (A a) as [c [d [n [C [_ [_ [_ [_ B]]]]]]]]. destruct (B Ho) as [lo [hi [[_ [_ X]] [Ec W]]]].
  exists c, d, n, (IZR n / 2). split; [exact C|]. specialize (X x Hx). rewrite Ec. apply Rabs_le. lra.
Qed.
Print Assumptions C63_intersection_covers_common.

(** sizes, centre and other cards *)
Theorem C64_cards :
  forall WCS h1 h2 w1 w2 nx1 ny1 nx2 ny2 sep ov,
  sees WCS h1 w1 nx1 ny1 -> sees WCS h2 w2 nx2 ny2 -> unwrapped sep w1 nx1 ny1 -> unwrapped sep w2 nx2 ny2 ->
  same_kind w1 w2 -> (forall a, scale_of w1 a <> 0 /\ scale_of w2 a <> 0) -> ov = "union"%string \/ ov = "intersection"%string ->
  exists h, header_overlap WCS h1 h2 sep ov = Ok h /\
    (* along an axis where the footprints meet: centred box, as wide as it up to less than a pixel, CRPIX in its middle *)
    (forall a, exists c d n, axis_cards h a c d n (IZR n / 2) /\ (0 <= n)%Z /\
       (overlapping w1 nx1 ny1 w2 nx2 ny2 a -> exists lo hi,
          extent (fun x => if String.eqb ov "union" then spans w1 nx1 ny1 a x \/ spans w2 nx2 ny2 a x
                           else spans w1 nx1 ny1 a x /\ spans w2 nx2 ny2 a x) lo hi /\
          c = (lo + hi) / 2 /\ hi - lo <= IZR n * Rabs d < hi - lo + Rabs d)) /\
    (* the CDi_j cards are gone, and no other card than these and CRVAL, CDELT, NAXIS, CRPIX is touched *)
    (forall k, In k cd_keys -> hget h k = Raise KeyError) /\
    (forall k, ~ In k wcs_keys -> hget h k = hget h1 k).
Proof.
  intros WCS h1 h2 w1 w2 nx1 ny1 nx2 ny2 sep ov S1 S2 U1 U2 K Hs Hov. destruct Hov as [-> | ->].
  - destruct (along_ok WCS h1 h2 w1 w2 nx1 ny1 nx2 ny2 sep "union" _ S1 S2 U1 U2 K Hs (or_introl (conj eq_refl eq_refl))) as [h [E [A [B C]]]].
    exists h. split; [exact E|]. split; [|split; assumption]. intros a. destruct (A a) as [c [d [n [Q [Hn [_ [_ [_ Q']]]]]]]]. exists c, d, n. split; [exact Q|]. split; [exact Hn|]. exact Q'.
  - destruct (along_ok WCS h1 h2 w1 w2 nx1 ny1 nx2 ny2 sep "intersection" _ S1 S2 U1 U2 K Hs (or_intror (conj eq_refl eq_refl))) as [h [E [A [B C]]]].
    exists h. split; [exact E|]. split; [|split; assumption]. intros a. destruct (A a) as [c [d [n [Q [Hn [_ [_ [_ Q']]]]]]]]. exists c, d, n. split; [exact Q|]. split; [exact Hn|]. exact Q'.
Qed.
Print Assumptions C64_cards.

(** *** the general shape of a successful call, and of a failing one *)
Lemma header_overlap_inv WCS h1 h2 w1 w2 nx1 ny1 nx2 ny2 sep ov :
  sees WCS h1 w1 nx1 ny1 -> sees WCS h2 w2 nx2 ny2 ->
  (ov = "union"%string \/ ov = "intersection"%string) /\
    ((exists n1 n2, asize sep w1 w2 nx1 ny1 nx2 ny2 ov AX1 (fst (pixel_scales w1 w2)) = Ok n1 /\ asize sep w1 w2 nx1 ny1 nx2 ny2 ov AX2 (snd (pixel_scales w1 w2)) = Ok n2) \/
     (exists e, header_overlap WCS h1 h2 sep ov = Raise e)) \/
  (ov <> "union"%string /\ ov <> "intersection"%string) /\ header_overlap WCS h1 h2 sep ov = Raise ValueError.
Proof.
  intros [E1 [N11 N12]] [E2 [N21 N22]]. unfold header_overlap. rewrite E1, E2. cbn [bind]. unfold hnum. rewrite N11, N12, N21, N22. cbn [bind].
  rewrite (surjective_pairing (pix2world w1 (IZR nx1, IZR ny1))), (surjective_pairing (pix2world w2 (IZR nx2, IZR ny2))).
  rewrite (surjective_pairing (pix2world w1 (1, 1))), (surjective_pairing (pix2world w2 (1, 1))). cbv beta zeta iota.
  rewrite !order2_minmax. destruct (string_dec ov "union") as [Eu|Eu]; [left|destruct (string_dec ov "intersection") as [Ei|Ei]; [left|right]].
  3:{ split; [auto|]. unfold merge_axis. rewrite (proj2 (String.eqb_neq _ _) Eu), (proj2 (String.eqb_neq _ _) Ei). reflexivity. }
  all: assert (Hov : ov = "union"%string \/ ov = "intersection"%string) by tauto; split; [exact Hov|]; rewrite !merge_axis_ok by auto; cbn [bind];
    rewrite (surjective_pairing (pixel_scales w1 w2));
    change (axis_size _ _ _ _ _ _ (fst (pixel_scales w1 w2))) with (asize sep w1 w2 nx1 ny1 nx2 ny2 ov AX1 (fst (pixel_scales w1 w2)));
    change (axis_size _ _ _ _ _ _ (snd (pixel_scales w1 w2))) with (asize sep w1 w2 nx1 ny1 nx2 ny2 ov AX2 (snd (pixel_scales w1 w2)));
    destruct (asize _ _ _ _ _ _ _ _ AX1 _) as [n1|e]; [|right; eexists; reflexivity]; cbn [bind]; destruct (asize _ _ _ _ _ _ _ _ AX2 _) as [n2|e]; [left; exists n1, n2; auto|right; eexists; reflexivity].
Qed.
Theorem C63_other_overlap_raises :
  forall WCS h1 h2 w1 w2 nx1 ny1 nx2 ny2 sep ov, sees WCS h1 w1 nx1 ny1 -> sees WCS h2 w2 nx2 ny2 ->
  ov <> "union"%string -> ov <> "intersection"%string -> header_overlap WCS h1 h2 sep ov = Raise ValueError.
Proof.
  intros WCS h1 h2 w1 w2 nx1 ny1 nx2 ny2 sep ov S1 S2 N1 N2. destruct (header_overlap_inv WCS h1 h2 w1 w2 nx1 ny1 nx2 ny2 sep ov S1 S2) as [[[Q|Q] _]|[_ Q]]; [contradiction|contradiction|exact Q].
Qed.
Print Assumptions C63_other_overlap_raises.

Lemma axis_size_raises l1 h1 l2 h2 lo hi c e : axis_size l1 h1 l2 h2 lo hi c = Raise e -> e = ValueError \/ e = OverflowError.
Proof.
  unfold axis_size. destruct (Rlt_dec h2 l1); [discriminate|]. destruct (Rlt_dec h1 l2); [discriminate|]. destruct (Req_EM_T c 0); [|discriminate].
  destruct (Req_EM_T (hi - lo) 0); intros Q; inversion Q; auto.
Qed.
(** *** a header whose pixel scale is 0 along an axis where the footprints meet: no header is returned *)
Theorem C63_zero_pixel_scale_raises :
  forall WCS h1 h2 w1 w2 nx1 ny1 nx2 ny2 sep ov a,
  sees WCS h1 w1 nx1 ny1 -> sees WCS h2 w2 nx2 ny2 -> unwrapped sep w1 nx1 ny1 -> unwrapped sep w2 nx2 ny2 -> same_kind w1 w2 ->
  ov = "union"%string \/ ov = "intersection"%string ->
  overlapping w1 nx1 ny1 w2 nx2 ny2 a -> scale_of w1 a = 0 \/ scale_of w2 a = 0 ->
  (exists x, header_overlap WCS h1 h2 sep ov = Raise x /\ (x = ValueError \/ x = OverflowError)) /\
  (a = AX1 -> forall lo hi, extent (fun x => if String.eqb ov "union" then spans w1 nx1 ny1 a x \/ spans w2 nx2 ny2 a x
                                           else spans w1 nx1 ny1 a x /\ spans w2 nx2 ny2 a x) lo hi ->
     (lo = hi -> header_overlap WCS h1 h2 sep ov = Raise ValueError) /\ (lo <> hi -> header_overlap WCS h1 h2 sep ov = Raise OverflowError)).
Proof.
  intros WCS h1 h2 w1 w2 nx1 ny1 nx2 ny2 sep ov a S1 S2 U1 U2 K Hov Ho Hz.
  assert (F1 : forall a, wfc sep w1 a = first_corner w1 a) by (intros []; [apply wrap_id, U1|reflexivity]).
  assert (F2 : forall a, wfc sep w2 a = first_corner w2 a) by (intros []; [apply wrap_id, U2|reflexivity]).
  assert (G1 : forall a, wlc sep w1 nx1 ny1 a = last_corner w1 nx1 ny1 a) by (intros []; [apply wrap_id, U1|reflexivity]).
  assert (G2 : forall a, wlc sep w2 nx2 ny2 a = last_corner w2 nx2 ny2 a) by (intros []; [apply wrap_id, U2|reflexivity]).
  set (l1 := Rmin (first_corner w1 a) (last_corner w1 nx1 ny1 a)). set (u1 := Rmax (first_corner w1 a) (last_corner w1 nx1 ny1 a)).
  set (l2 := Rmin (first_corner w2 a) (last_corner w2 nx2 ny2 a)). set (u2 := Rmax (first_corner w2 a) (last_corner w2 nx2 ny2 a)).
  assert (L1 : l1 <= u1) by (apply Rle_trans with (first_corner w1 a); [apply Rmin_l|apply Rmax_l]).
  assert (L2 : l2 <= u2) by (apply Rle_trans with (first_corner w2 a); [apply Rmin_l|apply Rmax_l]).
  assert (OI := proj1 (overlap_iff w1 nx1 ny1 w2 nx2 ny2 a) Ho). cbv zeta in OI. fold l1 u1 l2 u2 in OI.
  assert (D : coord a (pixel_scales w1 w2) = 0).
  { apply Rabs_eq_0. assert (M : Rmin (Rabs (scale_of w1 a)) (Rabs (scale_of w2 a)) = 0).
    { assert (P1 := Rabs_pos (scale_of w1 a)). assert (P2 := Rabs_pos (scale_of w2 a)).
      destruct Hz as [Z|Z]; rewrite Z, Rabs_R0 in *; unfold Rmin; destruct (Rle_dec _ _); lra. }
    rewrite pixel_scales_spec by auto. rewrite M, Rmult_0_l. apply Rabs_R0. }
  assert (AS : asize sep w1 w2 nx1 ny1 nx2 ny2 ov a (coord a (pixel_scales w1 w2)) =
    if Req_EM_T (hi_of ov u1 u2 - lo_of ov l1 l2) 0 then Raise ValueError else Raise OverflowError).
  { unfold asize, alo1, ahi1. rewrite F1, F2, G1, G2. fold l1 u1 l2 u2. unfold axis_size. rewrite D.
    destruct (Rlt_dec u2 l1); [tauto|]. destruct (Rlt_dec u1 l2); [tauto|]. destruct (Req_EM_T 0 0); [reflexivity|contradiction]. }
  assert (EX : forall lo hi, extent (fun x => if String.eqb ov "union" then spans w1 nx1 ny1 a x \/ spans w2 nx2 ny2 a x
                                           else spans w1 nx1 ny1 a x /\ spans w2 nx2 ny2 a x) lo hi -> lo = lo_of ov l1 l2 /\ hi = hi_of ov u1 u2).
  { assert (SP1 : forall x, spans w1 nx1 ny1 a x <-> l1 <= x <= u1) by (intros x; apply spans_minmax).
    assert (SP2 : forall x, spans w2 nx2 ny2 a x <-> l2 <= x <= u2) by (intros x; apply spans_minmax).
    intros lo hi [P1 [P2 P3]]. assert (Q1 := P3 (lo_of ov l1 l2)). assert (Q2 := P3 (hi_of ov u1 u2)). revert P1 P2 Q1 Q2. clear P3 AS. clearbody l1 u1 l2 u2.
    destruct Hov as [-> | ->]; unfold lo_of, hi_of; cbn [String.eqb Ascii.eqb Bool.eqb]; rewrite !SP1, !SP2;
      unfold Rmin, Rmax; destruct (Rle_dec l1 l2), (Rle_dec u1 u2); intros; lra. }
  assert (GEN : header_overlap WCS h1 h2 sep ov = (let! _ := asize sep w1 w2 nx1 ny1 nx2 ny2 ov AX1 (fst (pixel_scales w1 w2)) in
                                                   let! _ := asize sep w1 w2 nx1 ny1 nx2 ny2 ov AX2 (snd (pixel_scales w1 w2)) in header_overlap WCS h1 h2 sep ov)).
  { destruct S1 as [E1 [N11 N12]], S2 as [E2 [N21 N22]]. unfold header_overlap at 1. rewrite E1, E2. cbn [bind]. unfold hnum. rewrite N11, N12, N21, N22. cbn [bind].
    rewrite (surjective_pairing (pix2world w1 (IZR nx1, IZR ny1))), (surjective_pairing (pix2world w2 (IZR nx2, IZR ny2))).
    rewrite (surjective_pairing (pix2world w1 (1, 1))), (surjective_pairing (pix2world w2 (1, 1))). cbv beta zeta iota.
    rewrite !order2_minmax. rewrite !merge_axis_ok by auto. cbn [bind]. rewrite (surjective_pairing (pixel_scales w1 w2)).
    change (axis_size _ _ _ _ _ _ (fst (pixel_scales w1 w2))) with (asize sep w1 w2 nx1 ny1 nx2 ny2 ov AX1 (fst (pixel_scales w1 w2))).
    change (axis_size _ _ _ _ _ _ (snd (pixel_scales w1 w2))) with (asize sep w1 w2 nx1 ny1 nx2 ny2 ov AX2 (snd (pixel_scales w1 w2))).
    destruct (asize _ _ _ _ _ _ _ _ AX1 _) as [n1|e1] eqn:Q1; cbn [bind]; [|reflexivity].
    destruct (asize _ _ _ _ _ _ _ _ AX2 _) as [n2|e2] eqn:Q2; cbn [bind]; [|reflexivity].
    exfalso. cbn [coord] in AS. destruct a; cbn [coord] in AS; [rewrite Q1 in AS|rewrite Q2 in AS]; destruct (Req_EM_T _ 0); discriminate. }
  split.
  - destruct a; cbn [coord] in AS; rewrite AS in GEN.
    + destruct (Req_EM_T _ 0); cbn [bind] in GEN; eauto.
    + assert (R1 : forall e, asize sep w1 w2 nx1 ny1 nx2 ny2 ov AX1 (fst (pixel_scales w1 w2)) = Raise e -> e = ValueError \/ e = OverflowError).
      { intros e. apply axis_size_raises. }
      destruct (asize _ _ _ _ _ _ _ _ AX1 _) as [n1|e1]; cbn [bind] in GEN.
      * destruct (Req_EM_T _ 0); cbn [bind] in GEN; eauto.
      * exists e1. split; [exact GEN|]. apply R1. reflexivity.
  - intros -> lo hi He. destruct (EX lo hi He) as [-> ->]. cbn [coord] in AS. rewrite AS in GEN. destruct (Req_EM_T _ 0) as [Z|Z]; cbn [bind] in GEN.
    + split; [intros _; exact GEN|]. intros N. exfalso. apply N. lra.
    + split; [|intros _; exact GEN]. intros N. exfalso. apply Z. lra.
Qed.
Print Assumptions C63_zero_pixel_scale_raises.

(** a header astropy cannot read, or without its size cards: the exception is passed on *)
Theorem C63_unusable_header_raises :
  forall WCS h1 h2 w1 w2 nx1 ny1 nx2 ny2 sep ov x,
  (WCS h1 = Raise x -> header_overlap WCS h1 h2 sep ov = Raise x) /\
  (WCS h1 = Ok w1 -> WCS h2 = Raise x -> header_overlap WCS h1 h2 sep ov = Raise x) /\
  (sees WCS h2 w2 nx2 ny2 -> WCS h1 = Ok w1 -> hget h1 "NAXIS1" = Raise KeyError \/ (hget h1 "NAXIS1" = Ok (HInt nx1) /\ hget h1 "NAXIS2" = Raise KeyError) ->
     header_overlap WCS h1 h2 sep ov = Raise KeyError) /\
  (sees WCS h1 w1 nx1 ny1 -> WCS h2 = Ok w2 -> hget h2 "NAXIS1" = Raise KeyError \/ (hget h2 "NAXIS1" = Ok (HInt nx2) /\ hget h2 "NAXIS2" = Raise KeyError) ->
     header_overlap WCS h1 h2 sep ov = Raise KeyError).
Proof.
  intros WCS h1 h2 w1 w2 nx1 ny1 nx2 ny2 sep ov x. unfold header_overlap. split; [intros ->; reflexivity|]. split; [intros -> ->; reflexivity|]. split.
  - intros [E2 [A2 B2]] E1 H. rewrite E1, E2. cbn [bind]. unfold hnum. destruct H as [-> |[-> ->]]; reflexivity.
  - intros [E1 [A1 B1]] E2 H. rewrite E1, E2. cbn [bind]. unfold hnum. rewrite A1, B1. cbn [bind]. destruct (pix2world w1 _) as [u v].
    destruct H as [-> |[-> ->]]; reflexivity.
Qed.
Print Assumptions C63_unusable_header_raises.

Lemma scale_mag a b : Rabs (Rmin (Rabs a) (Rabs b) * np_sign a) = Rmin (Rabs a) (Rabs b).
Proof.
  destruct (Req_dec a 0) as [->|N].
  - rewrite Rabs_R0. assert (E : Rmin 0 (Rabs b) = 0) by (rewrite Rmin_left; [reflexivity|apply Rabs_pos]). rewrite E, Rmult_0_l. apply Rabs_R0.
  - apply sign_mag; [auto|]. unfold Rmin. destruct (Rle_dec _ _); apply Rabs_pos.
Qed.
Lemma pixel_scales_swap w1 w2 : Rabs (fst (pixel_scales w1 w2)) = Rabs (fst (pixel_scales w2 w1)) /\ Rabs (snd (pixel_scales w1 w2)) = Rabs (snd (pixel_scales w2 w1)).
Proof.
  unfold pixel_scales. destruct (w_cd w1) as [[[[a11 a12] a21] a22]|], (w_cd w2) as [[[[b11 b12] b21] b22]|]; cbn [fst snd]; rewrite !scale_mag; split; apply Rmin_comm.
Qed.
Lemma Rabs_0_iff c c' : Rabs c = Rabs c' -> c = 0 -> c' = 0.
Proof. intros H ->. rewrite Rabs_R0 in H. destruct (Req_dec c' 0); auto. apply Rabs_pos_lt in H0. lra. Qed.
Lemma axis_size_swap l1 h1 l2 h2 lo hi c c' n : Rabs c = Rabs c' -> axis_size l1 h1 l2 h2 lo hi c = Ok n -> axis_size l2 h2 l1 h1 lo hi c' = Ok n.
Proof.
  intros H. unfold axis_size. destruct (Rlt_dec h2 l1) as [A|A], (Rlt_dec h1 l2) as [B|B]; auto.
  destruct (Req_EM_T c 0) as [Z0|Z0]; [destruct (Req_EM_T (hi - lo) 0); discriminate|]. destruct (Req_EM_T c' 0) as [Z1|Z1]; [exfalso; apply Z0; symmetry in H; apply (Rabs_0_iff _ _ H Z1)|].
  intros Q. rewrite <- Q. f_equal. f_equal. unfold Rdiv. rewrite !Rabs_mult, !Rabs_inv, H. reflexivity.
Qed.
(** swapping the headers changes neither the centre nor the size, and the pixel scale at most in sign *)
Theorem C63_symmetric :
  forall WCS h1 h2 w1 w2 nx1 ny1 nx2 ny2 sep ov h, sees WCS h1 w1 nx1 ny1 -> sees WCS h2 w2 nx2 ny2 ->
  header_overlap WCS h1 h2 sep ov = Ok h ->
  exists h', header_overlap WCS h2 h1 sep ov = Ok h' /\
    forall a, exists c d d' n p, axis_cards h a c d n p /\ axis_cards h' a c d' n p /\ Rabs d' = Rabs d.
Proof.
  intros WCS h1 h2 w1 w2 nx1 ny1 nx2 ny2 sep ov h S1 S2 E.
  destruct (header_overlap_inv WCS h1 h2 w1 w2 nx1 ny1 nx2 ny2 sep ov S1 S2) as [[Hov [[n1 [n2 [A1 A2]]]|[e Q]]]|[_ Q]]; [|congruence|congruence].
  destruct (header_overlap_ok WCS h1 h2 w1 w2 nx1 ny1 nx2 ny2 sep ov n1 n2 S1 S2 Hov A1 A2) as [h0 [E0 [C0 _]]]. rewrite E in E0. injection E0 as <-.
  destruct (pixel_scales_swap w1 w2) as [P1 P2].
  assert (LC : forall x y, lo_of ov x y = lo_of ov y x) by (intros; unfold lo_of; destruct (String.eqb ov "union"); [apply Rmin_comm|apply Rmax_comm]).
  assert (HC : forall x y, hi_of ov x y = hi_of ov y x) by (intros; unfold hi_of; destruct (String.eqb ov "union"); [apply Rmax_comm|apply Rmin_comm]).
  destruct (header_overlap_ok WCS h2 h1 w2 w1 nx2 ny2 nx1 ny1 sep ov n1 n2 S2 S1 Hov) as [h' [E' [C' _]]].
  { unfold asize in *. cbv zeta in *. rewrite (LC (alo1 w2 _ _ _ _ _)), (HC (ahi1 w2 _ _ _ _ _)). eapply axis_size_swap; [exact P1|exact A1]. }
  { unfold asize in *. cbv zeta in *. rewrite (LC (alo1 w2 _ _ _ _ _)), (HC (ahi1 w2 _ _ _ _ _)). eapply axis_size_swap; [exact P2|exact A2]. }
  exists h'. split; [exact E'|]. intros a. specialize (C0 a). specialize (C' a). rewrite (LC (alo1 w2 _ _ _ _ _)), (HC (ahi1 w2 _ _ _ _ _)) in C'.
  do 5 eexists. split; [exact C0|]. split; [exact C'|]. destruct a; cbn [coord]; auto.
Qed.
Print Assumptions C63_symmetric.

(** longitudes count modulo 360: corners given 360 too high or too low are treated as those in (-180, 180) *)
Theorem C63_longitudes_modulo_360 :
  forall WCS WCS' h1 h2 w1 w2 w1' w2' nx1 ny1 nx2 ny2 ov,
  sees WCS h1 w1 nx1 ny1 -> sees WCS h2 w2 nx2 ny2 -> sees WCS' h1 w1' nx1 ny1 -> sees WCS' h2 w2' nx2 ny2 ->
  let same_mod_360 := fun w w' nx ny =>
    w_cd w = w_cd w' /\ w_cdelt w = w_cdelt w' /\ first_corner w AX2 = first_corner w' AX2 /\ last_corner w nx ny AX2 = last_corner w' nx ny AX2 /\
    (exists k, (-1 <= k <= 1)%Z /\ first_corner w AX1 = first_corner w' AX1 + 360 * IZR k) /\ Rabs (first_corner w' AX1) < 180 /\
    (exists k, (-1 <= k <= 1)%Z /\ last_corner w nx ny AX1 = last_corner w' nx ny AX1 + 360 * IZR k) /\ Rabs (last_corner w' nx ny AX1) < 180 in
  same_mod_360 w1 w1' nx1 ny1 -> same_mod_360 w2 w2' nx2 ny2 ->
  header_overlap WCS h1 h2 180 ov = header_overlap WCS' h1 h2 180 ov.
Proof.
  intros WCS WCS' h1 h2 w1 w2 w1' w2' nx1 ny1 nx2 ny2 ov S1 S2 S1' S2' sm M1 M2.
  assert (WR : forall x y, (exists k, (-1 <= k <= 1)%Z /\ x = y + 360 * IZR k) -> Rabs y < 180 -> wrap_deg 180 x = wrap_deg 180 y).
  { intros x y [k [Hk ->]] Hy. apply Rabs_def2 in Hy. assert (Ek : (k = -1 \/ k = 0 \/ k = 1)%Z) by lia. unfold wrap_deg.
    destruct Ek as [->|[->| ->]]; repeat (destruct (Rlt_dec _ _)); try lra. }
  destruct M1 as [A1 [A2 [A3 [A4 [A5 [A6 [A7 A8]]]]]]]. destruct M2 as [B1 [B2 [B3 [B4 [B5 [B6 [B7 B8]]]]]]].
  assert (PS : pixel_scales w1 w2 = pixel_scales w1' w2') by (unfold pixel_scales; rewrite A1, A2, B1, B2; reflexivity).
  destruct S1 as [E1 [N11 N12]]. destruct S2 as [E2 [N21 N22]]. destruct S1' as [E1' _]. destruct S2' as [E2' _]. unfold header_overlap. rewrite E1, E2, E1', E2'. cbn [bind].
  unfold hnum. rewrite N11, N12, N21, N22. cbn [bind].
  rewrite (surjective_pairing (pix2world w1 (IZR nx1, IZR ny1))), (surjective_pairing (pix2world w2 (IZR nx2, IZR ny2))).
  rewrite (surjective_pairing (pix2world w1 (1, 1))), (surjective_pairing (pix2world w2 (1, 1))).
  rewrite (surjective_pairing (pix2world w1' (IZR nx1, IZR ny1))), (surjective_pairing (pix2world w2' (IZR nx2, IZR ny2))).
  rewrite (surjective_pairing (pix2world w1' (1, 1))), (surjective_pairing (pix2world w2' (1, 1))). cbv beta zeta iota.
  unfold first_corner, last_corner, coord in *.
  rewrite (WR _ _ A5 A6), (WR _ _ A7 A8), (WR _ _ B5 B6), (WR _ _ B7 B8), A3, A4, B3, B4, PS. reflexivity.
Qed.
Print Assumptions C63_longitudes_modulo_360.

(** *** concrete headers: nz pixels of scale s from coordinate crval along axis 1, 3 unit pixels along axis 2 *)
Definition hdr (crval s : R) (nz : Z) (cd : bool) : header :=
  [("NAXIS1", HInt nz); ("NAXIS2", HInt 3); ("CRVAL1", HFloat crval); ("CRPIX1", HFloat 1); ("CRVAL2", HFloat 0); ("CRPIX2", HFloat 1);
   ("OBJECT", HStr "M31")]%string ++ (if cd then [("CD1_1", HFloat s); ("CD2_2", HFloat 1)]%string else [("CDELT1", HFloat s); ("CDELT2", HFloat 1)]%string).
Lemma hdr_sees crval s nz cd : sees linear_WCS (hdr crval s nz cd) (linear_wcs crval 0 1 1 s 1 cd) nz 3.
Proof. split; [|split]; destruct cd; reflexivity. Qed.
Lemma hdr_first crval s cd a : first_corner (linear_wcs crval 0 1 1 s 1 cd) a = coord a (crval, 0).
Proof. destruct a; cbn; ring. Qed.
Lemma hdr_last crval s nz cd a : last_corner (linear_wcs crval 0 1 1 s 1 cd) nz 3 a = coord a (crval + s * (IZR nz - 1), 2).
Proof. destruct a; cbn; ring. Qed.
Lemma hdr_scale crval s cd a : scale_of (linear_wcs crval 0 1 1 s 1 cd) a = coord a (s, 1).
Proof. destruct cd, a; reflexivity. Qed.
Lemma hdr_unwrapped sep crval s nz cd : Rabs crval <= sep -> Rabs (crval + s * (IZR nz - 1)) <= sep -> unwrapped sep (linear_wcs crval 0 1 1 s 1 cd) nz 3.
Proof. intros H1 H2. split; [rewrite hdr_first|rewrite hdr_last]; cbn [coord fst]; auto. Qed.

Example C63_nonvacuous :
  let w1 := linear_wcs 0 0 1 1 1 1 true in let w2 := linear_wcs (11/2) 0 1 1 (1/2) 1 true in
  sees linear_WCS (hdr 0 1 10 true) w1 10 3 /\ sees linear_WCS (hdr (11/2) (1/2) 20 true) w2 20 3 /\
  unwrapped 180 w1 10 3 /\ unwrapped 180 w2 20 3 /\ same_kind w1 w2 /\ (forall a, scale_of w1 a <> 0 /\ scale_of w2 a <> 0) /\
  (forall a, overlapping w1 10 3 w2 20 3 a).
Proof.
  cbv zeta. split; [apply hdr_sees|]. split; [apply hdr_sees|]. split; [apply hdr_unwrapped; apply Rabs_le; lra|]. split; [apply hdr_unwrapped; apply Rabs_le; lra|].
  split; [split; discriminate|]. split; [intros a; rewrite !hdr_scale; destruct a; cbn; lra|].
  intros a. exists (coord a (6, 1)). unfold spans. rewrite !hdr_first, !hdr_last. destruct a; cbn; lra.
Qed.

Example C63_zero_scale_nonvacuous :
  let w1 := linear_wcs 0 0 1 1 0 1 true in let w2 := linear_wcs (-1) 0 1 1 (1/2) 1 true in
  sees linear_WCS (hdr 0 0 10 true) w1 10 3 /\ sees linear_WCS (hdr (-1) (1/2) 20 true) w2 20 3 /\
  unwrapped 180 w1 10 3 /\ unwrapped 180 w2 20 3 /\ same_kind w1 w2 /\ scale_of w1 AX1 = 0 /\ overlapping w1 10 3 w2 20 3 AX1.
Proof.
  cbv zeta. split; [apply hdr_sees|]. split; [apply hdr_sees|]. split; [apply hdr_unwrapped; apply Rabs_le; lra|]. split; [apply hdr_unwrapped; apply Rabs_le; lra|].
  split; [split; discriminate|]. split; [rewrite hdr_scale; reflexivity|].
  exists 0. unfold spans. rewrite !hdr_first, !hdr_last. cbn; lra.
Qed.

(** "union" of disjoint footprints is empty instead of enclosing both *)
Theorem C63_union_disjoint_refuted :
  exists h, header_overlap linear_WCS (hdr 0 1 10 true) (hdr 20 1 10 true) 180 "union" = Ok h /\
    hget h "NAXIS1" = Ok (HInt 0) /\ ~ covers h AX1 5.
Proof.
  set (w1 := linear_wcs 0 0 1 1 1 1 true). set (w2 := linear_wcs 20 0 1 1 1 1 true).
  destruct (C63_union_covers_both linear_WCS (hdr 0 1 10 true) (hdr 20 1 10 true) w1 w2 10 3 10 3 180) as [h [E [A _]]].
  - apply hdr_sees.
  - apply hdr_sees.
  - apply hdr_unwrapped; apply Rabs_le; lra.
  - apply hdr_unwrapped; apply Rabs_le; lra.
  - split; discriminate.
  - intros a. unfold w1, w2. rewrite !hdr_scale. destruct a; cbn; lra.
  - exists h. split; [exact E|]. destruct (A AX1) as [c [d [n [C [_ [_ [_ [N _]]]]]]]]. assert (Z0 : n = 0%Z).
    { apply N. intros [x [X1 X2]]. unfold spans, w1, w2 in X1, X2. rewrite hdr_first, hdr_last in X1. rewrite hdr_first, hdr_last in X2. cbn in X1, X2. lra. }
    subst n. split; [apply C|]. intros [c' [d' [n' [p' [C' Q]]]]]. destruct C as [C1 [C2 [C3 _]]]. destruct C' as [C1' [C2' [C3' _]]]. rewrite C3 in C3'. injection C3' as <-.
    (* the centre of the empty box is 14.5 *)
    assert (Ec : hget h "CRVAL1" = Ok (HFloat (29/2))).
    { destruct (header_overlap_ok linear_WCS (hdr 0 1 10 true) (hdr 20 1 10 true) w1 w2 10 3 10 3 180 "union" 0 2) as [h0 [E0 [B0 _]]].
      - apply hdr_sees.
      - apply hdr_sees.
      - auto.
      - unfold asize, alo1, ahi1, wfc, wlc, w1, w2. rewrite !hdr_first, !hdr_last. cbn [coord fst]. rewrite !wrap_id by (apply Rabs_le; lra).
        unfold axis_size. rewrite !Rmin_left, !Rmax_right by lra. destruct (Rlt_dec _ _); [reflexivity|]. destruct (Rlt_dec _ _); [reflexivity|lra].
      - unfold asize, alo1, ahi1, wfc, wlc, w1, w2. rewrite !hdr_first, !hdr_last. cbn [coord fst snd]. rewrite (Rmin_left 0 2), (Rmax_right 0 2) by lra.
        unfold lo_of, hi_of. cbn [String.eqb Ascii.eqb Bool.eqb]. rewrite Rmin_left, Rmax_right by lra. unfold axis_size. repeat (destruct (Rlt_dec _ _); [lra|]).
        unfold pixel_scales. cbn [w_cd linear_wcs snd]. rewrite Rmin_left by lra. rewrite (Rabs_right 1) by lra. unfold np_sign. destruct (Rlt_dec 1 0); [lra|]. destruct (Rlt_dec 0 1); [|lra].
        destruct (Req_EM_T _ 0); [lra|]. f_equal. replace ((2 - 0) / (1 * 1)) with 2 by field. rewrite Rabs_right by lra. apply (ceilR_IZR 2).
      - rewrite E in E0. injection E0 as <-. destruct (B0 AX1) as [B1 _]. change (key "CRVAL" AX1) with "CRVAL1"%string in B1. rewrite B1. do 2 f_equal.
        unfold alo1, ahi1, wfc, wlc, w1, w2. rewrite !hdr_first, !hdr_last. cbn [coord fst]. rewrite !wrap_id by (apply Rabs_le; lra). rewrite (Rmin_left 0), (Rmax_right 0), (Rmin_left 20), (Rmax_right 20) by lra.
        unfold lo_of, hi_of. cbn [String.eqb Ascii.eqb Bool.eqb]. rewrite Rmin_left, Rmax_right by lra. lra. }
    change (key "CRVAL" AX1) with "CRVAL1"%string in C1'. rewrite Ec in C1'. injection C1' as <-. rewrite Rabs_left in Q by lra. lra.
Qed.
Print Assumptions C63_union_disjoint_refuted.

(** one header with a CD matrix, the other with CDELT: the pixel scale is compared with CDELT's default 1 *)
Theorem C63_mixed_scale_refuted :
  exists h, header_overlap linear_WCS (hdr 0 (1/1000) 10 true) (hdr 0 2 10 false) 180 "union" = Ok h /\
    hget h "CDELT1" = Ok (HFloat 1) /\ scale_of (linear_wcs 0 0 1 1 (1/1000) 1 true) AX1 = 1/1000.
Proof.
  set (w1 := linear_wcs 0 0 1 1 (1/1000) 1 true). set (w2 := linear_wcs 0 0 1 1 2 1 false).
  assert (P : pixel_scales w1 w2 = (1, 1)).
  { unfold pixel_scales, w1, w2. cbn [w_cd w_cdelt linear_wcs fst snd]. unfold np_sign. destruct (Rlt_dec 1 0); [lra|]. destruct (Rlt_dec 0 1); [|lra].
    rewrite (Rabs_right 1), (Rabs_right 2), !Rmin_left by lra. f_equal; ring. }
  destruct (header_overlap_ok linear_WCS (hdr 0 (1/1000) 10 true) (hdr 0 2 10 false) w1 w2 10 3 10 3 180 "union" 18 2) as [h [E [B _]]].
  - apply hdr_sees.
  - apply hdr_sees.
  - auto.
  - rewrite P. unfold asize, alo1, ahi1, wfc, wlc, w1, w2. rewrite !hdr_first, !hdr_last. cbn [coord fst]. rewrite !wrap_id by (apply Rabs_le; lra). rewrite !(Rmin_left 0), !(Rmax_right 0) by lra.
    unfold lo_of, hi_of. cbn [String.eqb Ascii.eqb Bool.eqb]. rewrite ?Rmin_left, ?Rmax_right by lra. unfold axis_size. repeat (destruct (Rlt_dec _ _); [lra|]).
    destruct (Req_EM_T 1 0); [lra|]. f_equal. replace ((0 + 2 * (10 - 1) - 0) / 1) with 18 by field. rewrite Rabs_right by lra. apply (ceilR_IZR 18).
  - rewrite P. unfold asize, alo1, ahi1, wfc, wlc, w1, w2. rewrite !hdr_first, !hdr_last. cbn [coord fst snd]. rewrite !(Rmin_left 0 2), !(Rmax_right 0 2) by lra.
    unfold lo_of, hi_of. cbn [String.eqb Ascii.eqb Bool.eqb]. rewrite Rmin_left, Rmax_right by lra. unfold axis_size. repeat (destruct (Rlt_dec _ _); [lra|]).
    destruct (Req_EM_T 1 0); [lra|]. f_equal. replace ((2 - 0) / 1) with 2 by field. rewrite Rabs_right by lra. apply (ceilR_IZR 2).
  - exists h. split; [exact E|]. split; [|reflexivity]. destruct (B AX1) as [_ [B2 _]]. change (key "CDELT" AX1) with "CDELT1"%string in B2. rewrite B2, P. reflexivity.
Qed.
Print Assumptions C63_mixed_scale_refuted.

(** an image straddling longitude 180 (170 to 190): the "box" runs from -170 to 170 the wrong way round *)
Theorem C63_straddling_180_refuted :
  exists h, header_overlap linear_WCS (hdr 170 1 21 true) (hdr 170 1 21 true) 180 "union" = Ok h /\
    hget h "CRVAL1" = Ok (HFloat 0) /\ hget h "NAXIS1" = Ok (HInt 340) /\
    spans (linear_wcs 170 0 1 1 1 1 true) 21 3 AX1 175 /\ ~ covers h AX1 175.
Proof.
  set (w := linear_wcs 170 0 1 1 1 1 true).
  assert (P : pixel_scales w w = (1, 1)).
  { unfold pixel_scales, w. cbn [w_cd w_cdelt linear_wcs fst snd]. unfold np_sign. destruct (Rlt_dec 1 0); [lra|]. destruct (Rlt_dec 0 1); [|lra].
    rewrite (Rabs_right 1), !Rmin_left by lra. f_equal; ring. }
  assert (W1 : wrap_deg 180 170 = 170) by (apply wrap_id; apply Rabs_le; lra).
  assert (W2 : wrap_deg 180 (170 + 1 * (21 - 1)) = -170) by (unfold wrap_deg; destruct (Rlt_dec _ _); lra).
  destruct (header_overlap_ok linear_WCS (hdr 170 1 21 true) (hdr 170 1 21 true) w w 21 3 21 3 180 "union" 340 2) as [h [E [B _]]].
  - apply hdr_sees.
  - apply hdr_sees.
  - auto.
  - rewrite P. unfold asize, alo1, ahi1, wfc, wlc, w. rewrite !hdr_first, !hdr_last. cbn [coord fst]. rewrite W1, W2. rewrite !(Rmin_right 170), !(Rmax_left 170) by lra.
    unfold lo_of, hi_of. cbn [String.eqb Ascii.eqb Bool.eqb]. rewrite ?Rmin_left, ?Rmax_right by lra. unfold axis_size. repeat (destruct (Rlt_dec _ _); [lra|]).
    destruct (Req_EM_T 1 0); [lra|]. f_equal. replace ((170 - -170) / 1) with 340 by field. rewrite Rabs_right by lra. apply (ceilR_IZR 340).
  - rewrite P. unfold asize, alo1, ahi1, wfc, wlc, w. rewrite !hdr_first, !hdr_last. cbn [coord fst snd]. rewrite !(Rmin_left 0 2), !(Rmax_right 0 2) by lra.
    unfold lo_of, hi_of. cbn [String.eqb Ascii.eqb Bool.eqb]. rewrite ?Rmin_left, ?Rmax_right by lra. unfold axis_size. repeat (destruct (Rlt_dec _ _); [lra|]).
    destruct (Req_EM_T 1 0); [lra|]. f_equal. replace ((2 - 0) / 1) with 2 by field. rewrite Rabs_right by lra. apply (ceilR_IZR 2).
  - exists h. split; [exact E|]. destruct (B AX1) as [B1 [B2 [B3 _]]].
    unfold alo1, ahi1, wfc, wlc, w in B1. rewrite !hdr_first, !hdr_last in B1. cbn [coord fst] in B1. rewrite W1, W2 in B1. rewrite !(Rmin_right 170), !(Rmax_left 170) in B1 by lra.
    unfold lo_of, hi_of in B1. cbn [String.eqb Ascii.eqb Bool.eqb] in B1. rewrite ?Rmin_left, ?Rmax_right in B1 by lra. replace ((-170 + 170) / 2) with 0 in B1 by field.
    rewrite P in B2. split; [exact B1|]. split; [exact B3|]. split; [unfold spans, w; rewrite hdr_first, hdr_last; cbn; lra|].
    intros [c [d [n [p [[C1 [C2 [C3 _]]] Q]]]]]. rewrite B1 in C1. rewrite B2 in C2. rewrite B3 in C3. injection C1 as <-. injection C2 as <-. injection C3 as <-. cbn in Q.
    rewrite !Rabs_right in Q by lra. lra.
Qed.
Print Assumptions C63_straddling_180_refuted.

(** *** C75: the overlap of a header with itself *)
Lemma hget_hhas h k : hget h k = Raise KeyError -> hhas h k = false.
Proof.
  induction h as [|[k0 v0] h IH]; cbn [hget hhas existsb fst]; [reflexivity|]. destruct (String.eqb k0 k); [discriminate|]. intros H. apply IH in H. exact H.
Qed.
(** "is the header again" is false: one row and one column fewer; pixel q of the result is pixel q + 1 of the original *)
Theorem C75_self_overlap_refuted :
  forall h w nx ny sep ov,
  sees linear_WCS h w nx ny -> (1 <= nx)%Z -> (1 <= ny)%Z -> unwrapped sep w nx ny -> (forall a, scale_of w a <> 0) ->
  ov = "union"%string \/ ov = "intersection"%string ->
  exists h' w', header_overlap linear_WCS h h sep ov = Ok h' /\ sees linear_WCS h' w' (nx - 1) (ny - 1) /\
    forall p q, pix2world w' (p, q) = pix2world w (p + 1, q + 1).
Proof.
  intros h w nx ny sep ov S Hx Hy U Hs Hov.
  assert (Hs' : forall a, scale_of w a <> 0 /\ scale_of w a <> 0) by (intros a; split; apply Hs).
  destruct (C64_cards linear_WCS h h w w nx ny nx ny sep ov S S U U (iff_refl _) Hs' Hov) as [h' [E [A [B _]]]].
  assert (AL : forall a, exists c d n, axis_cards h' a c d n (IZR n / 2) /\ Rabs d = Rabs (scale_of w a) /\ 0 < d * scale_of w a).
  { intros a. destruct Hov as [-> | ->].
    - destruct (C63_union_covers_both linear_WCS h h w w nx ny nx ny sep S S U U (iff_refl _) Hs') as [h0 [E0 [A0 _]]]. rewrite E in E0. injection E0 as <-.
      destruct (A0 a) as [c [d [n [Q [_ [Q1 [Q2 _]]]]]]]. exists c, d, n. split; [exact Q|]. split; [|exact Q2]. rewrite Q1. apply Rmin_left. lra.
    - destruct (C63_intersection_covers_common linear_WCS h h w w nx ny nx ny sep S S U U (iff_refl _) Hs') as [h0 [E0 [A0 _]]]. rewrite E in E0. injection E0 as <-.
      destruct (A0 a) as [c [d [n [Q [_ [Q1 [Q2 _]]]]]]]. exists c, d, n. split; [exact Q|]. split; [|exact Q2]. rewrite Q1. apply Rmin_left. lra. }
  destruct S as [Sw SN]. unfold linear_WCS in Sw. injection Sw as Sw.
  set (v1 := card h "CRVAL1" 0) in *. set (v2 := card h "CRVAL2" 0) in *. set (p1 := card h "CRPIX1" 0) in *. set (p2 := card h "CRPIX2" 0) in *.
  set (s1 := if hhas h "CD1_1" then _ else _) in Sw. set (s2 := if hhas h "CD1_1" then card h "CD2_2" 0 else _) in Sw.
  assert (SC : forall a, scale_of w a = coord a (s1, s2)) by (intros a; rewrite <- Sw; unfold scale_of, linear_wcs; destruct (hhas h "CD1_1"), a; reflexivity).
  assert (FC : forall a, first_corner w a = coord a (v1 + s1 * (1 - p1), v2 + s2 * (1 - p2))) by (intros a; rewrite <- Sw; destruct a; reflexivity).
  assert (LC : forall a, last_corner w nx ny a = coord a (v1 + s1 * (IZR nx - p1), v2 + s2 * (IZR ny - p2))) by (intros a; rewrite <- Sw; destruct a; reflexivity).
  assert (NZ : forall a, coord a (s1, s2) <> 0) by (intros a; rewrite <- SC; apply Hs).
  assert (KEY : forall a (N : Z), N = match a with AX1 => nx | AX2 => ny end ->
     axis_cards h' a (coord a (v1 + s1 * ((IZR nx + 1) / 2 - p1), v2 + s2 * ((IZR ny + 1) / 2 - p2))) (coord a (s1, s2)) (N - 1) (IZR (N - 1) / 2)).
  { intros a N EN. destruct (A a) as [c [d [n [C [Hn W]]]]]. destruct (AL a) as [c' [d' [n' [C' [D1 D2]]]]].
    assert (d' = d) by (destruct C as [_ [C2 _]], C' as [_ [C2' _]]; congruence). subst d'. rewrite SC in D1, D2.
    assert (Ed : d = coord a (s1, s2)). { specialize (NZ a). unfold Rabs in D1. destruct (Rcase_abs d), (Rcase_abs (coord a (s1, s2))); nra. }
    assert (HN : (1 <= N)%Z) by (destruct a; subst N; auto). assert (HN' : 0 <= IZR N - 1) by (apply IZR_le in HN; lra).
    destruct W as [lo [hi [X [Ec Ew]]]].
    { exists (first_corner w a). unfold spans. split; destruct (Rle_dec (first_corner w a) (last_corner w nx ny a)); lra. }
    assert (SPX : forall x, (if String.eqb ov "union" then spans w nx ny a x \/ spans w nx ny a x else spans w nx ny a x /\ spans w nx ny a x) <-> spans w nx ny a x) by (intros x; destruct (String.eqb ov "union"); tauto).
    destruct X as [X1 [X2 X3]]. rewrite SPX in X1, X2. setoid_rewrite SPX in X3.
    assert (Y1 : spans w nx ny a (first_corner w a)) by (unfold spans; destruct (Rle_dec (first_corner w a) (last_corner w nx ny a)); lra).
    assert (Y2 : spans w nx ny a (last_corner w nx ny a)) by (unfold spans; destruct (Rle_dec (first_corner w a) (last_corner w nx ny a)); lra).
    apply X3 in Y1. apply X3 in Y2. unfold spans in X1, X2.
    assert (LF : last_corner w nx ny a - first_corner w a = coord a (s1, s2) * (IZR N - 1)) by (rewrite FC, LC, EN; destruct a; cbn [coord fst snd]; ring).
    assert (Mid : lo + hi = first_corner w a + last_corner w nx ny a) by lra.
    assert (Wd : hi - lo = Rabs d * (IZR N - 1)).
    { rewrite Ed. unfold Rabs. destruct (Rcase_abs _) as [Q|Q]; [assert (coord a (s1, s2) * (IZR N - 1) <= 0) by nra|assert (0 <= coord a (s1, s2) * (IZR N - 1)) by nra]; lra. }
    assert (Pd : 0 < Rabs d) by (apply Rabs_pos_lt; rewrite Ed; apply NZ).
    assert (En : n = (N - 1)%Z).
    { rewrite Wd in Ew. assert (IZR N - 1 <= IZR n) by (apply Rmult_le_reg_l with (Rabs d); lra). assert (IZR n < IZR N) by (apply Rmult_lt_reg_l with (Rabs d); lra).
      rewrite <- minus_IZR in H. apply le_IZR in H. apply lt_IZR in H0. lia. }
    subst n. rewrite <- Ed. replace (coord a (v1 + s1 * ((IZR nx + 1) / 2 - p1), v2 + s2 * ((IZR ny + 1) / 2 - p2))) with c; [exact C|].
    rewrite Ec, Mid, FC, LC. destruct a; cbn [coord fst snd]; field. }
  destruct (KEY AX1 nx eq_refl) as [K1 [K2 [K3 K4]]]. destruct (KEY AX2 ny eq_refl) as [L1 [L2 [L3 L4]]].
  change (key "CRVAL" AX1) with "CRVAL1"%string in K1. change (key "CDELT" AX1) with "CDELT1"%string in K2. change (key "NAXIS" AX1) with "NAXIS1"%string in K3. change (key "CRPIX" AX1) with "CRPIX1"%string in K4.
  change (key "CRVAL" AX2) with "CRVAL2"%string in L1. change (key "CDELT" AX2) with "CDELT2"%string in L2. change (key "NAXIS" AX2) with "NAXIS2"%string in L3. change (key "CRPIX" AX2) with "CRPIX2"%string in L4.
  eexists h', _. split; [exact E|]. split; [split; [reflexivity|split; [exact K3|exact L3]]|].
  intros p q. rewrite (hget_hhas h' "CD1_1") by (apply B; cbn; tauto). unfold card. rewrite K1, K2, K4, L1, L2, L4. rewrite <- Sw. cbn [pix2world linear_wcs fst snd coord].
  rewrite !minus_IZR. f_equal; field.
Qed.
Print Assumptions C75_self_overlap_refuted.
Example C75_nonvacuous : sees linear_WCS (hdr 10 (1/2) 7 true) (linear_wcs 10 0 1 1 (1/2) 1 true) 7 3 /\ unwrapped 180 (linear_wcs 10 0 1 1 (1/2) 1 true) 7 3 /\
  forall a, scale_of (linear_wcs 10 0 1 1 (1/2) 1 true) a <> 0.
Proof. split; [apply hdr_sees|]. split; [apply hdr_unwrapped; apply Rabs_le; lra|]. intros a. rewrite hdr_scale. destruct a; cbn; lra. Qed.

(** *** fits_overlap: the same on the headers of two files; a file without a header fails with the error of reading it *)
Corollary C63_fits_overlap_of_files :
  forall W f1 f2 h1 h2 w1 w2 nx1 ny1 nx2 ny2 sep,
  io_getheader W f1 = Ok h1 -> io_getheader W f2 = Ok h2 ->
  sees (io_wcs W) h1 w1 nx1 ny1 -> sees (io_wcs W) h2 w2 nx2 ny2 -> unwrapped sep w1 nx1 ny1 -> unwrapped sep w2 nx2 ny2 ->
  same_kind w1 w2 -> (forall a, scale_of w1 a <> 0 /\ scale_of w2 a <> 0) ->
  (exists h, fits_overlap W f1 f2 sep "union" = Ok h /\
     forall a, overlapping w1 nx1 ny1 w2 nx2 ny2 a -> forall x, spans w1 nx1 ny1 a x \/ spans w2 nx2 ny2 a x -> covers h a x) /\
  (exists h, fits_overlap W f1 f2 sep "intersection" = Ok h /\
     forall a, overlapping w1 nx1 ny1 w2 nx2 ny2 a -> forall x, spans w1 nx1 ny1 a x /\ spans w2 nx2 ny2 a x -> covers h a x).
Proof.
  intros W f1 f2 h1 h2 w1 w2 nx1 ny1 nx2 ny2 sep G1 G2 S1 S2 U1 U2 K Z. unfold fits_overlap. rewrite G1, G2. cbn [bind]. split.
  - destruct (C63_union_covers_both _ _ _ _ _ _ _ _ _ sep S1 S2 U1 U2 K Z) as [h [E [_ C]]]. exists h. auto.
  - destruct (C63_intersection_covers_common _ _ _ _ _ _ _ _ _ sep S1 S2 U1 U2 K Z) as [h [E [_ C]]]. exists h. auto.
Qed.
Print Assumptions C63_fits_overlap_of_files.
Theorem C63_fits_overlap_unreadable_file :
  forall W f1 f2 e sep ov, io_getheader W f1 = Raise e \/ (exists h, io_getheader W f1 = Ok h) /\ io_getheader W f2 = Raise e ->
  fits_overlap W f1 f2 sep ov = Raise e.
Proof. intros W f1 f2 e sep ov [H|[[h H] H']]; unfold fits_overlap; rewrite H; [reflexivity|]. cbn [bind]. rewrite H'. reflexivity. Qed.
Print Assumptions C63_fits_overlap_unreadable_file.
