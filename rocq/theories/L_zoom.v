(** Lemmas about zoom.py *)
From Coq Require Import ZArith Lia List Reals Lra Bool.
From Coquelicot Require Import Complex.
From Verif Require Import Base NDim DFT Kernel Py M_fast_ffts M_shift M_scale M_zoom Spec L_shift L_scale.
Import ListNotations.
Open Scope R_scope.

(** coordinate of output sample j of an m-sample grid with spacing 1/u centred on c *)
Definition grid_at (c u : R) (m j : Z) : R := c + (IZR j - (IZR m - 1) / 2) / u.

Lemma linspace_grid c u m j : u <> 0 -> (0 <= j < m)%Z ->
  linspace_at (c - IZR (m - 1) / u / 2) (c + IZR (m - 1) / u / 2) m j = grid_at c u m j.
Proof.
  intros Hu Hj. unfold linspace_at, grid_at. destruct (Z.leb_spec m 1) as [H|H].
  - replace m with 1%Z by lia. replace j with 0%Z by lia. simpl. field. exact Hu.
  - rewrite minus_IZR. assert (IZR m - 1 <> 0).
    { rewrite <- minus_IZR. apply IZR_neq0. lia. }
    field. split; auto.
Qed.

Lemma pydiv_ok x y : y <> 0 -> pydiv x y = Ok (x / y).
Proof. intros H. unfold pydiv. destruct (Req_EM_T y 0); [contradiction|reflexivity]. Qed.

Lemma zoom1d_ok env (inp : arr C) n u om off nt np rx rr :
  shape inp = [n] -> (0 < n)%Z -> u <> 0 -> (0 <= match om with None => n | Some m => m end)%Z ->
  let m := match om with None => n | Some m => m end in
  exists xs r, zoom1d env inp u om off nt np rx rr = Ok (with_xouts rx xs (pick_real rr r)) /\
    shape xs = [m] /\ shape r = [m] /\
    forall j, (0 <= j < m)%Z -> g1 xs j = grid_at ((IZR n - 1) / 2 + off) u m j /\
      g1 r j = interpN [n] (get inp) [grid_at ((IZR n - 1) / 2 + off) u m j].
Proof.
  intros Hs Hn Hu Hm m. unfold zoom1d. rewrite Hs. fold m in Hm. fold m.
  rewrite pydiv_ok by auto. simpl bind. unfold linspace. destruct (Z.ltb_spec m 0); [lia|]. simpl bind.
  set (xs := mk1 m _).
  destruct (fourier_interp1d_ok env inp n xs m nt np rr Hs Hn eq_refl) as [r [H1 [H2 H3]]].
  rewrite H1. simpl bind. exists xs, r. split; [reflexivity|]. split; [reflexivity|]. split; [exact H2|].
  intros j Hj. assert (E : g1 xs j = grid_at ((IZR n - 1) / 2 + off) u m j).
  { unfold g1, xs; simpl. apply linspace_grid; auto. }
  split; [exact E|]. unfold g1 at 1. rewrite H3 by auto. rewrite E. reflexivity.
Qed.

Definition oshape (inp : arr C) (o : option (list Z)) : list Z := match o with None => shape inp | Some s => s end.

Lemma zoom1_ok env (inp : arr C) n c u o m nt np rr rx :
  shape inp = [n] -> (0 < n)%Z -> u <> 0 -> oshape inp o = [m] -> (0 <= m)%Z -> (m <> 1)%Z ->
  exists xs r, zoom_on_pixel env inp [c] u o nt np rr rx = Ok (with_xouts rx xs (pick_real rr r)) /\
    shape xs = [1%Z; m] /\ shape r = [m] /\
    forall j, (0 <= j < m)%Z -> get xs [0%Z; j] = grid_at c u m j /\
      g1 r j = interpN [n] (get inp) [grid_at c u m j].
Proof.
  intros Hs Hn Hu Ho Hm Hm1. unfold zoom_on_pixel. fold (oshape inp o). rewrite Ho, Hs. simpl.
  destruct (Z.ltb_spec m 0); [lia|]. simpl. rewrite pydiv_ok by auto. simpl.
  destruct (Z.eqb_spec m 1); [lia|].
  set (sq := mk1 m _).
  destruct (fourier_interp1d_ok env inp n sq m nt np rr Hs Hn eq_refl) as [r [H1 [H2 H3]]].
  rewrite H1. simpl. eexists; exists r. split; [reflexivity|]. split; [reflexivity|]. split; [exact H2|].
  intros j Hj. assert (E : g1 sq j = grid_at c u m j).
  { unfold g1, sq; simpl. unfold axis_grid; simpl. apply linspace_grid; auto. }
  split; [exact E|]. unfold g1 at 1. rewrite H3 by auto. rewrite E. reflexivity.
Qed.

Lemma zoom2_ok env (inp : arr C) ny nx cy cx u o my mx nt np rr rx :
  shape inp = [ny; nx] -> (0 < ny)%Z -> (0 < nx)%Z -> u <> 0 -> oshape inp o = [my; mx] -> (0 < my)%Z -> (0 < mx)%Z ->
  exists xs r, zoom_on_pixel env inp [cy; cx] u o nt np rr rx = Ok (with_xouts rx xs (pick_real rr r)) /\
    shape xs = [2%Z; my; mx] /\ shape r = [my; mx] /\
    forall i j, (0 <= i < my)%Z -> (0 <= j < mx)%Z ->
      get xs [0%Z; i; j] = grid_at cy u my i /\ get xs [1%Z; i; j] = grid_at cx u mx j /\
      g2 r i j = interpN [ny; nx] (get inp) [grid_at cy u my i; grid_at cx u mx j].
Proof.
  intros Hs Hy Hx Hu Ho Hmy Hmx. unfold zoom_on_pixel. fold (oshape inp o). rewrite Ho, Hs. simpl.
  destruct (Z.ltb_spec my 0); [lia|]. destruct (Z.ltb_spec mx 0); [lia|]. simpl. rewrite pydiv_ok by auto. simpl.
  set (oa := Arr [2%Z; my; mx] _).
  assert (G0 : forall i j, (0 <= i < my)%Z -> get oa [0%Z; i; j] = grid_at cy u my i).
  { intros i j Hi. unfold oa; simpl. unfold axis_grid; simpl. apply linspace_grid; auto. }
  assert (G1 : forall i j, (0 <= j < mx)%Z -> get oa [1%Z; i; j] = grid_at cx u mx j).
  { intros i j Hj. unfold oa; simpl. unfold axis_grid; simpl. change (Pos.to_nat 1) with 1%nat. simpl. apply linspace_grid; auto. }
  destruct (fourier_interp2d_ok env inp ny nx (IndArr oa) (mk1 my (fun i => get oa [0; i; 0]%Z)) (mk1 mx (fun j => get oa [1; 0; j]%Z)) my mx nt np rr) as [r [H1 [H2 H3]]]; auto.
  { unfold coords2, axis_coords. simpl shape. cbv iota. simpl Z.eqb. cbv iota.
    destruct (Z.leb_spec mx 0); [lia|]. destruct (Z.leb_spec my 0); [lia|]. split; reflexivity. }
  rewrite H1. simpl. exists oa, r. split; [reflexivity|]. split; [reflexivity|]. split; [exact H2|].
  intros i j Hi Hj. split; [apply G0; auto|]. split; [apply G1; auto|].
  unfold g2. rewrite H3. unfold g1; cbn [get mk1]. rewrite G0, G1 by auto. reflexivity.
Qed.

Lemma grid_int_identity n j : grid_at ((IZR n - 1) / 2) 1 n j = IZR j.
Proof. unfold grid_at. field. Qed.
