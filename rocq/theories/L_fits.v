(** Lemmas about the FITS model *)
From Coq Require Import ZArith Lia List Reals Lra Bool String.
From Verif Require Import Base NDim Num Py M_fits Spec7.
Import ListNotations.
Open Scope R_scope.

Lemma hget_hset h k v k' : hget (hset h k v) k' = if String.eqb k k' then Ok v else hget h k'.
Proof.
  induction h as [|[k0 v0] h IH]; cbn [hset hget]; [reflexivity|].
  destruct (String.eqb_spec k0 k) as [->|N]; cbn [hget].
  - destruct (String.eqb_spec k k'); reflexivity.
  - rewrite IH. destruct (String.eqb_spec k0 k') as [->|N']; [|reflexivity]. destruct (String.eqb_spec k k'); [congruence|reflexivity].
Qed.
Lemma hget_hdel h k k' : hget (hdel h k) k' = if String.eqb k k' then Raise KeyError else hget h k'.
Proof.
  unfold hdel. induction h as [|[k0 v0] h IH]; cbn [filter hget fst]; [destruct (String.eqb k k'); reflexivity|].
  destruct (String.eqb_spec k0 k) as [->|N]; cbn [negb].
  - rewrite IH. destruct (String.eqb_spec k k'); reflexivity.
  - cbn [hget]. rewrite IH. destruct (String.eqb_spec k0 k') as [->|N']; [|reflexivity]. destruct (String.eqb_spec k k'); [congruence|reflexivity].
Qed.
Lemma hhas_hget h k : hhas h k = false -> hget h k = Raise KeyError.
Proof.
  induction h as [|[k0 v0] h IH]; cbn [hhas existsb hget fst]; [reflexivity|]. intros H. apply orb_false_iff in H. destruct H as [H1 H2]. rewrite H1. apply IH. exact H2.
Qed.
Lemma hget_cdel h k k' : hget (if hhas h k then hdel h k else h) k' = if String.eqb k k' then Raise KeyError else hget h k'.
Proof.
  destruct (hhas h k) eqn:E; [apply hget_hdel|]. destruct (String.eqb_spec k k') as [<-|]; [apply hhas_hget; auto|reflexivity].
Qed.
Lemma order2_minmax a b : order2 a b = (Rmin a b, Rmax a b).
Proof. unfold order2, Rmin, Rmax. destruct (Rlt_dec b a), (Rle_dec a b); try lra; reflexivity. Qed.
Lemma wrap_id sep x : Rabs x <= sep -> wrap_deg sep x = x.
Proof. intros H. unfold wrap_deg. assert (Q1 := Rle_abs x). assert (Q2 := Rle_abs (- x)). rewrite Rabs_Ropp in Q2. destruct (Rlt_dec sep x); [lra|]. destruct (Rlt_dec x (- sep)); [lra|reflexivity]. Qed.

Lemma spans_minmax w nx ny a x : spans w nx ny a x <-> Rmin (first_corner w a) (last_corner w nx ny a) <= x <= Rmax (first_corner w a) (last_corner w nx ny a).
Proof. unfold spans, Rmin, Rmax. destruct (Rle_dec _ _); lra. Qed.
Lemma sign_mag m s : s <> 0 -> 0 <= m -> Rabs (m * np_sign s) = m.
Proof. intros Hs Hm. unfold np_sign. destruct (Rlt_dec s 0); [rewrite Rabs_left1; lra|]. destruct (Rlt_dec 0 s); [rewrite Rabs_right; lra|lra]. Qed.
Lemma pixel_scales_spec w1 w2 a : same_kind w1 w2 ->
  coord a (pixel_scales w1 w2) = Rmin (Rabs (scale_of w1 a)) (Rabs (scale_of w2 a)) * np_sign (scale_of w1 a).
Proof.
  unfold same_kind, pixel_scales, scale_of. destruct (w_cd w1) as [[[[a11 a12] a21] a22]|], (w_cd w2) as [[[[b11 b12] b21] b22]|]; intros [H1 H2].
  - destruct a; reflexivity.
  - discriminate (H2 eq_refl).
  - discriminate (H1 eq_refl).
  - destruct a; reflexivity.
Qed.

(** the box along one axis *)
Definition lo_of (ov : string) (l1 l2 : R) := if String.eqb ov "union" then Rmin l1 l2 else Rmax l1 l2.
Definition hi_of (ov : string) (h1 h2 : R) := if String.eqb ov "union" then Rmax h1 h2 else Rmin h1 h2.
Lemma merge_axis_ok ov l1 h1 l2 h2 : ov = "union"%string \/ ov = "intersection"%string -> merge_axis ov l1 h1 l2 h2 = Ok (lo_of ov l1 l2, hi_of ov h1 h2).
Proof. intros [-> | ->]; reflexivity. Qed.

Definition alo1 (w1 : wcs) (nx1 ny1 : Z) (a : axis) (fc : wcs -> axis -> R) (lc : wcs -> Z -> Z -> axis -> R) := Rmin (fc w1 a) (lc w1 nx1 ny1 a).
Definition ahi1 (w1 : wcs) (nx1 ny1 : Z) (a : axis) (fc : wcs -> axis -> R) (lc : wcs -> Z -> Z -> axis -> R) := Rmax (fc w1 a) (lc w1 nx1 ny1 a).

(** corners after wrapping the longitudes *)
Definition wfc (sep : R) (w : wcs) (a : axis) : R := match a with AX1 => wrap_deg sep (first_corner w AX1) | AX2 => first_corner w AX2 end.
Definition wlc (sep : R) (w : wcs) (nx ny : Z) (a : axis) : R := match a with AX1 => wrap_deg sep (last_corner w nx ny AX1) | AX2 => last_corner w nx ny AX2 end.
Definition asize sep w1 w2 nx1 ny1 nx2 ny2 ov a cdelt : res Z :=
  let l1 := alo1 w1 nx1 ny1 a (wfc sep) (wlc sep) in let h1 := ahi1 w1 nx1 ny1 a (wfc sep) (wlc sep) in
  let l2 := alo1 w2 nx2 ny2 a (wfc sep) (wlc sep) in let h2 := ahi1 w2 nx2 ny2 a (wfc sep) (wlc sep) in
  axis_size l1 h1 l2 h2 (lo_of ov l1 l2) (hi_of ov h1 h2) cdelt.

Lemma header_overlap_ok WCS h1 h2 w1 w2 nx1 ny1 nx2 ny2 sep ov n1 n2 :
  sees WCS h1 w1 nx1 ny1 -> sees WCS h2 w2 nx2 ny2 -> ov = "union"%string \/ ov = "intersection"%string ->
  asize sep w1 w2 nx1 ny1 nx2 ny2 ov AX1 (fst (pixel_scales w1 w2)) = Ok n1 ->
  asize sep w1 w2 nx1 ny1 nx2 ny2 ov AX2 (snd (pixel_scales w1 w2)) = Ok n2 ->
  exists h, header_overlap WCS h1 h2 sep ov = Ok h /\
   (forall a, axis_cards h a
     ((lo_of ov (alo1 w1 nx1 ny1 a (wfc sep) (wlc sep)) (alo1 w2 nx2 ny2 a (wfc sep) (wlc sep)) +
       hi_of ov (ahi1 w1 nx1 ny1 a (wfc sep) (wlc sep)) (ahi1 w2 nx2 ny2 a (wfc sep) (wlc sep))) / 2)
     (coord a (pixel_scales w1 w2)) (match a with AX1 => n1 | AX2 => n2 end) (IZR (match a with AX1 => n1 | AX2 => n2 end) / 2)) /\
   (forall k, ~ In k wcs_keys -> hget h k = hget h1 k) /\
   (forall k, In k cd_keys -> hget h k = Raise KeyError).
Proof.
  intros [E1 [N11 N12]] [E2 [N21 N22]] Hov S1 S2. unfold header_overlap. rewrite E1, E2. cbn [bind]. unfold hnum. rewrite N11, N12, N21, N22. cbn [bind].
  rewrite (surjective_pairing (pix2world w1 (IZR nx1, IZR ny1))), (surjective_pairing (pix2world w2 (IZR nx2, IZR ny2))).
  rewrite (surjective_pairing (pix2world w1 (1, 1))), (surjective_pairing (pix2world w2 (1, 1))). cbv beta zeta iota.
  rewrite !order2_minmax. rewrite !merge_axis_ok by auto. cbn [bind].
  rewrite (surjective_pairing (pixel_scales w1 w2)).
  change (axis_size _ _ _ _ _ _ (fst _)) with (asize sep w1 w2 nx1 ny1 nx2 ny2 ov AX1 (fst (pixel_scales w1 w2))).
  change (axis_size _ _ _ _ _ _ (snd _)) with (asize sep w1 w2 nx1 ny1 nx2 ny2 ov AX2 (snd (pixel_scales w1 w2))).
  rewrite S1. cbn [bind]. rewrite S2. cbn [bind fold_left]. eexists. split; [reflexivity|]. split; [|split].
  - intros []; cbn [key coord]; unfold axis_cards; rewrite !hget_hset, !hget_cdel, !hget_hset; cbn; repeat split; reflexivity.
  - intros k Hk. assert (forall k0, In k0 wcs_keys -> String.eqb k0 k = false) by (intros k0 Q; apply String.eqb_neq; intros ->; auto).
    rewrite !hget_hset, !hget_cdel, !hget_hset. rewrite !H by (cbn; tauto). reflexivity.
  - intros k Hk. rewrite !hget_hset, !hget_cdel. cbn [cd_keys In] in Hk. decompose [or False] Hk; subst k; reflexivity.
Qed.
