(** Lemmas on the zoom loop *)
From Coq Require Import ZArith Lia List Reals Lra Bool.
From Coquelicot Require Import Complex.
From Verif Require Import Base NDim DFT Kernel Num Py M_fast_ffts M_shift M_scale M_zoom M_downsample M_convolve M_correlate Arg M_chi2 M_iterzoom Spec5.
Import ListNotations.
Open Scope R_scope.

Lemma better_spec mm a b : better mm a b = true <-> sgn mm * a < sgn mm * b.
Proof. destruct mm; unfold better, sgn; destruct (Rlt_dec _ _); split; intros; try congruence; lra. Qed.
Lemma better_false mm a b : better mm a b = false <-> sgn mm * b <= sgn mm * a.
Proof. destruct mm; unfold better, sgn; destruct (Rlt_dec _ _); split; intros; try congruence; lra. Qed.

Lemma fold_best mm t : forall p pre, 
  (forall q, In q pre -> sgn mm * snd p < sgn mm * snd q) ->
  forall mid, (forall q, In q mid -> sgn mm * snd p <= sgn mm * snd q) ->
  first_best mm (pre ++ p :: mid ++ t) (fold_left (fun best q => if better mm (snd q) (snd best) then q else best) t p).
Proof.
  induction t as [|q t IH]; intros p pre Hpre mid Hmid; cbn [fold_left].
  - exists pre, mid. rewrite app_nil_r. auto.
  - destruct (better mm (snd q) (snd p)) eqn:E.
    + apply better_spec in E. specialize (IH q (pre ++ p :: mid)).
      replace (pre ++ p :: mid ++ q :: t) with ((pre ++ p :: mid) ++ q :: [] ++ t) by (rewrite <- app_assoc; reflexivity).
      apply IH; [|intros r []]. intros r Hr. apply in_app_or in Hr. destruct Hr as [Hr|[<-|Hr]]; [|auto|].
      * specialize (Hpre r Hr). lra.
      * specialize (Hmid r Hr). lra.
    + apply better_false in E. replace (pre ++ p :: mid ++ q :: t) with (pre ++ p :: (mid ++ [q]) ++ t) by (rewrite <- app_assoc; reflexivity).
      apply IH; auto. intros r Hr. apply in_app_or in Hr. destruct Hr as [Hr|[<-|[]]]; auto.
Qed.
Lemma extremum_first mm v : v <> [] -> exists p, extremum mm v = Some p /\ first_best mm v p.
Proof.
  destruct v as [|p t]; [congruence|]. intros _. eexists. split; [reflexivity|]. apply (fold_best mm t p [] ltac:(intros q []) [] ltac:(intros q [])).
Qed.
Lemma first_best_In mm v p : first_best mm v p -> In p v /\ forall q, In q v -> sgn mm * snd p <= sgn mm * snd q.
Proof.
  intros [l1 [l2 [-> [H1 H2]]]]. split; [apply in_or_app; right; left; auto|]. intros q Hq. apply in_app_or in Hq.
  destruct Hq as [Hq|[<-|Hq]]; [left; auto|lra|auto].
Qed.
Lemma extremum_ok mm v : v <> [] -> exists p, extremum mm v = Some p /\ In p v /\ forall q, In q v -> sgn mm * snd p <= sgn mm * snd q.
Proof. intros H. destruct (extremum_first mm v H) as [p [E F]]. exists p. split; [exact E|]. apply (first_best_In mm v p F). Qed.

Lemma nonzero_spec x : nonzero x = true <-> 0 < x.
Proof. unfold nonzero. destruct (Rlt_dec 0 x); split; intros; auto; discriminate. Qed.
Lemma smallest_ok mm v p : extremum mm v = Some p -> v <> [] -> 
  (varied v /\ exists d q, smallest_nonzero (snd p) v = Ok d /\ In q v /\ d = Rabs (snd q - snd p) /\ 0 < d /\
      forall r, In r v -> snd r <> snd p -> d <= Rabs (snd r - snd p)) \/
  (~ varied v /\ smallest_nonzero (snd p) v = Raise ValueError).
Proof.
  intros E Hv. destruct (extremum_ok mm v Hv) as [p' [E' [Hp Hm]]]. rewrite E in E'. injection E' as <-.
  unfold smallest_nonzero. set (l := filter nonzero (abs_deltas (snd p) v)).
  assert (L : forall x, In x l <-> exists q, In q v /\ x = Rabs (snd q - snd p) /\ snd q <> snd p).
  { intros x. unfold l, abs_deltas. rewrite filter_In, in_map_iff, nonzero_spec. split.
    - intros [[q [<- Hq]] Hx]. exists q. split; [auto|]. split; [auto|]. intros Q. rewrite Q, Rminus_diag_eq, Rabs_R0 in Hx by reflexivity. lra.
    - intros [q [Hq [-> Hn]]]. split; [exists q; auto|]. apply Rabs_pos_lt. lra. }
  destruct l as [|x t] eqn:El.
  - right. split; [|reflexivity]. intros [a [b [Ha [Hb Hn]]]].
    assert (A : forall q, In q v -> snd q = snd p).
    { intros q Hq. destruct (Req_EM_T (snd q) (snd p)) as [G|G]; [auto|]. exfalso. apply (proj2 (L (Rabs (snd q - snd p)))). exists q. auto. }
    apply Hn. rewrite (A a Ha), (A b Hb). reflexivity.
  - left. destruct (lmin_ok (x :: t)) as [d [Ed [Hd Md]]]; [discriminate|]. destruct (proj1 (L d) Hd) as [q [Hq [Eq Nq]]].
    split; [exists q, p; auto|]. exists d, q. split; [exact Ed|]. split; [auto|]. split; [auto|]. split; [rewrite Eq; apply Rabs_pos_lt; lra|].
    intros r Hr Nr. apply Md. apply L. exists r. auto.
Qed.
Lemma allzero_spec m v p : extremum m v = Some p -> v <> [] ->
  forallb (fun x => negb (nonzero x)) (abs_deltas (snd p) v) = true <-> ~ varied v.
Proof.
  intros E Hv. destruct (extremum_ok m v Hv) as [p' [E' [Hp Hm]]]. rewrite E in E'. injection E' as <-.
  rewrite forallb_forall. split.
  - intros H [a [b [Ha [Hb Hn]]]].
    assert (A : forall q, In q v -> snd q = snd p).
    { intros q Hq. specialize (H (Rabs (snd q - snd p)) ltac:(unfold abs_deltas; apply in_map_iff; exists q; auto)).
      destruct (Req_EM_T (snd q) (snd p)) as [G|G]; [auto|]. assert (N : nonzero (Rabs (snd q - snd p)) = true) by (apply nonzero_spec, Rabs_pos_lt; lra).
      rewrite N in H. discriminate. }
    apply Hn. rewrite (A a Ha), (A b Hb). reflexivity.
  - intros H x Hx. apply in_map_iff in Hx. destruct Hx as [q [<- Hq]]. destruct (nonzero (Rabs (snd q - snd p))) eqn:N; [|reflexivity]. exfalso.
    apply nonzero_spec in N. apply H. exists q, p. split; [auto|]. split; [auto|]. intros Q. rewrite Q, Rminus_diag_eq, Rabs_R0 in N by reflexivity. lra.
Qed.

Lemma smallest_gap mm v p d : extremum mm v = Some p -> v <> [] -> smallest_nonzero (snd p) v = Ok d -> is_gap mm v d.
Proof.
  intros E Hv S. destruct (extremum_ok mm v Hv) as [p' [E' [Hp Hm]]]. rewrite E in E'. injection E' as <-.
  destruct (smallest_ok mm v p E Hv) as [[_ [d' [q [S' [Hq [Ed [D0 Dm]]]]]]]|[_ S']]; [|congruence].
  rewrite S in S'. injection S' as <-. exists p, q. auto 10.
Qed.
Lemma gap_unique mm v d d' : is_gap mm v d -> is_gap mm v d' -> d = d'.
Proof.
  intros [p [q [Hp [Mp [Hq [D0 [Ed Dm]]]]]]] [p' [q' [Hp' [Mp' [Hq' [D0' [Ed' Dm']]]]]]].
  assert (Ep : snd p = snd p'). { specialize (Mp p' Hp'). specialize (Mp' p Hp). destruct mm; cbn in *; lra. }
  rewrite Ep in *. apply Rle_antisym.
  - rewrite Ed'. apply Dm; auto. intros Q. rewrite Q, Rminus_diag_eq, Rabs_R0 in Ed' by reflexivity. lra.
  - rewrite Ed. apply Dm'; auto. intros Q. rewrite Q, Rminus_diag_eq, Rabs_R0 in Ed by reflexivity. lra.
Qed.

Section loop.
  Variables (mm : minmax) (mindiff step : R) (mid : list R) (zoom : list R -> R -> res view).

  (** unfolding of one evaluation of the loop condition *)
  Lemma zloop_S fuel v zf cen off : v <> [] ->
    (~ varied v /\ zloop (S fuel) mm mindiff step mid zoom v zf cen off = Some (Raise ValueError)) \/
    (exists d, is_gap mm v d /\ d <= mindiff /\ zloop (S fuel) mm mindiff step mid zoom v zf cen off = Some (Ok (v, zf, cen, off))) \/
    (exists d p, is_gap mm v d /\ mindiff < d /\ first_best mm v p /\
       zloop (S fuel) mm mindiff step mid zoom v zf cen off =
       match zoom (fst p) (zf * step) with
       | Raise e => Some (Raise e)
       | Ok v' => match extremum mm v' with
                  | None => Some (Raise ValueError)
                  | Some best' => if forallb (fun x => negb (nonzero x)) (abs_deltas (snd best') v')
                                  then Some (Ok (v', zf * step, Some (fst p), zipw Rminus (fst p) mid))
                                  else zloop fuel mm mindiff step mid zoom v' (zf * step) (Some (fst p)) (zipw Rminus (fst p) mid)
                  end
       end).
  Proof.
    intros Hv. destruct (extremum_first mm v Hv) as [p [E F]]. cbn [zloop]. rewrite E.
    destruct (smallest_ok mm v p E Hv) as [[_ [d [q [S _]]]]|[N S]]; rewrite S.
    - right. assert (G := smallest_gap mm v p d E Hv S). destruct (Rlt_dec mindiff d) as [L|L].
      + right. exists d, p. auto.
      + left. exists d. split; [auto|]. split; [lra|reflexivity].
    - left. auto.
  Qed.

  Lemma zloop_mono fuel : forall v zf cen off r, zloop fuel mm mindiff step mid zoom v zf cen off = Some r ->
    forall fuel', (fuel <= fuel')%nat -> zloop fuel' mm mindiff step mid zoom v zf cen off = Some r.
  Proof.
    induction fuel as [|fuel IH]; intros v zf cen off r H fuel' Hf; [discriminate|]. destruct fuel' as [|fuel']; [lia|].
    cbn [zloop] in *. destruct (extremum mm v) as [best|]; [|exact H]. destruct (smallest_nonzero _ _); [|exact H].
    destruct (Rlt_dec mindiff a); [|exact H]. destruct (zoom _ _); [|exact H]. destruct (extremum mm a0); [|exact H].
    destruct (forallb _ _); [exact H|]. apply (IH _ _ _ _ _ H). lia.
  Qed.

  (** *** termination *)
  Variables (K : R) (good : list R -> Prop).
  Hypothesis zoom_ok : forall c zf, good c -> 0 < zf -> exists v', zoom c zf = Ok v' /\ v' <> [] /\ (forall p, In p v' -> good (fst p)) /\
    forall p q, In p v' -> In q v' -> Rabs (snd p - snd q) <= K / zf.
  Hypothesis (Hstep : 1 < step) (Hmd : 0 < mindiff).

  Lemma zloop_terminates n : forall v zf cen off, (1 <= n)%nat -> v <> [] -> (forall p, In p v -> good (fst p)) -> 0 < zf ->
    varied v -> K <= mindiff * (zf * step ^ n) ->
    exists s, zloop (S n) mm mindiff step mid zoom v zf cen off = Some (Ok s).
  Proof.
    induction n as [|n IH]; intros v zf cen off Hn Hv Hg Hz Hvar HK; [lia|].
    destruct (zloop_S (S n) v zf cen off Hv) as [[N _]|[[d [_ [_ E]]]|[d [p [G [L [F E]]]]]]]; [contradiction|rewrite E; eauto|].
    rewrite E. clear E. destruct (first_best_In _ _ _ F) as [Hp _].
    assert (Hz' : 0 < zf * step) by (apply Rmult_lt_0_compat; lra).
    destruct (zoom_ok (fst p) (zf * step) (Hg p Hp) Hz') as [v' [Ez [Nv' [Hg' Sp]]]]. rewrite Ez.
    destruct (extremum_first mm v' Nv') as [b [Eb Fb]]. rewrite Eb.
    destruct (forallb _ _) eqn:AZ; [eauto|].
    assert (V' : varied v').
    { apply Classical_Prop.NNPP. intros NV. rewrite (proj2 (allzero_spec mm v' b Eb Nv') NV) in AZ. discriminate. }
    destruct n as [|n].
    - (* the new samples are too close to each other *)
      destruct (zloop_S O v' (zf * step) (Some (fst p)) (zipw Rminus (fst p) mid) Nv') as [[N _]|[[d' [_ [_ E]]]|[d' [p' [G' [L' _]]]]]]; [contradiction|rewrite E; eauto|].
      exfalso. destruct G' as [a [q [Ha [_ [Hq [D0 [Ed _]]]]]]]. specialize (Sp q a Hq Ha). rewrite <- Ed in Sp.
      assert (K / (zf * step) <= mindiff); [|lra]. apply (Rmult_le_reg_r (zf * step)); [auto|]. unfold Rdiv. rewrite Rmult_assoc, Rinv_l, Rmult_1_r by lra.
      simpl in HK. lra.
    - apply IH; auto; [lia|]. simpl in HK |- *. lra.
  Qed.
End loop.

(** *** where the centre goes *)
(** a and b differ by at most r * h_d along each axis d *)
Definition close (h : list R) (r : R) (a b : list R) : Prop :=
  length a = length b /\ forall d, Rabs (nth d a 0 - nth d b 0) <= nth d h 0 * r.
Lemma close_refl h r a : (forall d, 0 <= nth d h 0) -> 0 <= r -> close h r a a.
Proof. intros Hh Hr. split; [reflexivity|]. intros d. rewrite Rminus_diag_eq, Rabs_R0 by reflexivity. apply Rmult_le_pos; auto. Qed.
Lemma close_trans h r s a b c : close h r a b -> close h s b c -> close h (r + s) a c.
Proof.
  intros [L1 H1] [L2 H2]. split; [congruence|]. intros d. specialize (H1 d). specialize (H2 d).
  replace (nth d a 0 - nth d c 0) with ((nth d a 0 - nth d b 0) + (nth d b 0 - nth d c 0)) by ring.
  eapply Rle_trans; [apply Rabs_triang|]. lra.
Qed.

Section invariant.
  Variables (mm : minmax) (mindiff step : R) (mid : list R) (zoom : list R -> R -> res view) (h : list R) (v0 : view) (F : list R -> R) (off0 : list R).
  Hypothesis (Hstep : 1 < step) (Hh : forall d, 0 <= nth d h 0) (Hv0 : v0 <> []) (HF0 : forall p, In p v0 -> snd p = F (fst p)).
  Variable good : list R -> Prop.
  Hypothesis (Hg0 : forall p, In p v0 -> good (fst p)).
  Hypothesis zoom_ok : forall c zf v', good c -> 0 < zf -> zoom c zf = Ok v' -> v' <> [] /\
    forall p, In p v' -> good (fst p) /\ close h (/ zf) (fst p) c /\ snd p = F (fst p).

  (** after k >= 1 iterations *)
  Definition after (k : nat) (p0 : list R * R) (v : view) (zf : R) (c off : list R) : Prop :=
    (1 <= k)%nat /\ zf = step ^ k /\ first_best mm v0 p0 /\ good c /\ zoom c zf = Ok v /\ off = zipw Rminus c mid /\
    close h ((1 - / step ^ (k - 1)) / (step - 1)) c (fst p0).

  Lemma pow_pos k : 0 < step ^ k.  Proof. apply pow_lt. lra. Qed.

  (** one more iteration from an [after] state *)
  Lemma after_S k p0 v zf c off p : after k p0 v zf c off -> first_best mm v p -> forall v', zoom (fst p) (zf * step) = Ok v' ->
    after (S k) p0 v' (zf * step) (fst p) (zipw Rminus (fst p) mid).
  Proof.
    intros [K1 [Ez [F0 [G [Zm [Eo Cl]]]]]] Fb v' Zv. destruct (first_best_In _ _ _ Fb) as [Hp _].
    assert (Pz : 0 < zf) by (rewrite Ez; apply pow_pos). destruct (zoom_ok c zf v G Pz Zm) as [_ Q]. destruct (Q p Hp) as [Gp [Cp _]].
    split; [lia|]. split; [rewrite Ez; simpl; ring|]. split; [exact F0|]. split; [exact Gp|]. split; [exact Zv|]. split; [reflexivity|].
    assert (T := close_trans _ _ _ _ _ _ Cp Cl). 
    replace ((1 - / step ^ (S k - 1)) / (step - 1)) with (/ zf + (1 - / step ^ (k - 1)) / (step - 1)); [exact T|].
    replace (S k - 1)%nat with k by lia. destruct k as [|k]; [lia|]. replace (S k - 1)%nat with k by lia. rewrite Ez. simpl. field.
    assert (P := pow_pos k). repeat split; lra.
  Qed.

  Lemma zloop_after fuel : forall k p0 v zf c off s, after k p0 v zf c off ->
    zloop fuel mm mindiff step mid zoom v zf (Some c) off = Some (Ok s) ->
    let '(v', zf', cen', off') := s in exists k' c', (k <= k')%nat /\ cen' = Some c' /\ after k' p0 v' zf' c' off' /\ stops mm mindiff v'.
  Proof.
    induction fuel as [|fuel IH]; intros k p0 v zf c off s A H; [discriminate|].
    assert (A' := A). destruct A' as [K1 [Ez [F0 [G [Zm [Eo Cl]]]]]]. assert (Pz : 0 < zf) by (rewrite Ez; apply pow_pos).
    destruct (zoom_ok c zf v G Pz Zm) as [Nv _].
    destruct (zloop_S mm mindiff step mid zoom fuel v zf (Some c) off Nv) as [[_ E]|[[d [Gd [Ld E]]]|[d [p [Gd [Ld [Fb E]]]]]]]; rewrite E in H.
    - discriminate.
    - injection H as <-. exists k, c. split; [lia|]. split; [reflexivity|]. split; [exact A|]. right. exists d. auto.
    - destruct (zoom (fst p) (zf * step)) as [v'|] eqn:Zv; [|discriminate]. assert (AS := after_S k p0 v zf c off p A Fb v' Zv).
      assert (Nv' : v' <> []). { destruct AS as [_ [Ez' [_ [G' [Z' _]]]]]. apply (zoom_ok _ _ _ G') in Z'; [apply Z'|rewrite Ez'; apply pow_pos]. }
      destruct (extremum_first mm v' Nv') as [b [Eb _]]. rewrite Eb in H. destruct (forallb _ _) eqn:AZ.
      + injection H as <-. exists (S k), (fst p). split; [lia|]. split; [reflexivity|]. split; [exact AS|]. left. apply (allzero_spec mm v' b Eb Nv'). exact AZ.
      + assert (R := IH (S k) p0 v' _ _ _ s AS H). destruct s as [[[v'' zf''] cen''] off'']. destruct R as [k' [c' [L [E' R]]]]. exists k', c'. split; [lia|]. auto.
  Qed.

  Lemma zloop_result fuel s : zloop fuel mm mindiff step mid zoom v0 1 None off0 = Some (Ok s) ->
    let '(v', zf', cen', off') := s in
    (exists d, is_gap mm v0 d /\ d <= mindiff /\ v' = v0 /\ zf' = 1 /\ cen' = None /\ off' = off0) \/
    (exists d p0 k c, is_gap mm v0 d /\ mindiff < d /\ cen' = Some c /\ after k p0 v' zf' c off' /\ stops mm mindiff v').
  Proof.
    destruct fuel as [|fuel]; [discriminate|]. intros H.
    destruct (zloop_S mm mindiff step mid zoom fuel v0 1 None off0 Hv0) as [[_ E]|[[d [Gd [Ld E]]]|[d [p [Gd [Ld [Fb E]]]]]]]; rewrite E in H.
    - discriminate.
    - injection H as <-. left. exists d. auto 10.
    - destruct (zoom (fst p) (1 * step)) as [v'|] eqn:Zv; [|discriminate].
      assert (A : after 1 p v' (1 * step) (fst p) (zipw Rminus (fst p) mid)).
      { split; [lia|]. split; [simpl; ring|]. split; [exact Fb|]. split; [apply Hg0, (first_best_In _ _ _ Fb)|]. split; [exact Zv|]. split; [reflexivity|].
        simpl. apply close_refl; auto. rewrite Rinv_1. unfold Rdiv. rewrite Rminus_diag_eq by reflexivity. lra. }
      assert (Nv' : v' <> []). { destruct A as [_ [Ez' [_ [G' [Z' _]]]]]. apply (zoom_ok _ _ _ G') in Z'; [apply Z'|rewrite Ez'; apply pow_pos]. }
      destruct (extremum_first mm v' Nv') as [b [Eb _]]. rewrite Eb in H. destruct (forallb _ _) eqn:AZ.
      + injection H as <-. right. exists d, p, 1%nat, (fst p). split; [auto|]. split; [auto|]. split; [reflexivity|]. split; [exact A|]. left. apply (allzero_spec mm v' b Eb Nv'). exact AZ.
      + assert (R := zloop_after fuel 1 p v' _ _ _ s A H). destruct s as [[[v'' zf''] cen''] off'']. destruct R as [k' [c' [L [E' R]]]].
        right. exists d, p, k', c'. auto.
  Qed.

  (** when every zoomed image contains its own centre, the interpolated value at the centre never gets worse *)
  Hypothesis zoom_centre : forall c zf v', good c -> 0 < zf -> zoom c zf = Ok v' -> exists p, In p v' /\ fst p = c.

  Lemma zloop_value fuel : forall k p0 v zf c off s, after k p0 v zf c off -> sgn mm * F c <= sgn mm * snd p0 ->
    zloop fuel mm mindiff step mid zoom v zf (Some c) off = Some (Ok s) ->
    forall c', snd (fst s) = Some c' -> sgn mm * F c' <= sgn mm * snd p0.
  Proof.
    induction fuel as [|fuel IH]; intros k p0 v zf c off s A HV H; [discriminate|].
    assert (A' := A). destruct A' as [K1 [Ez [F0 [G [Zm [Eo Cl]]]]]]. assert (Pz : 0 < zf) by (rewrite Ez; apply pow_pos).
    destruct (zoom_ok c zf v G Pz Zm) as [Nv Q].
    destruct (zloop_S mm mindiff step mid zoom fuel v zf (Some c) off Nv) as [[_ E]|[[d [Gd [Ld E]]]|[d [p [Gd [Ld [Fb E]]]]]]]; rewrite E in H.
    - discriminate.
    - injection H as <-. cbn [fst snd]. intros c' [= <-]. exact HV.
    - destruct (zoom (fst p) (zf * step)) as [v'|] eqn:Zv; [|discriminate]. assert (AS := after_S k p0 v zf c off p A Fb v' Zv).
      assert (Nv' : v' <> []). { destruct AS as [_ [Ez' [_ [G' [Z' _]]]]]. apply (zoom_ok _ _ _ G') in Z'; [apply Z'|rewrite Ez'; apply pow_pos]. }
      assert (VP : sgn mm * F (fst p) <= sgn mm * snd p0).
      { destruct (first_best_In _ _ _ Fb) as [Hp Mp]. destruct (zoom_centre c zf v G Pz Zm) as [q [Hq Eq]].
        specialize (Mp q Hq). rewrite (proj2 (proj2 (Q q Hq))), Eq, (proj2 (proj2 (Q p Hp))) in Mp. lra. }
      destruct (extremum_first mm v' Nv') as [b [Eb _]]. rewrite Eb in H. destruct (forallb _ _) eqn:AZ.
      + injection H as <-. cbn [fst snd]. intros c' [= <-]. exact VP.
      + exact (IH (S k) p0 v' _ _ _ s AS VP H).
  Qed.
End invariant.

(** *** the whole trace *)
Section trace.
  Variables (mm : minmax) (mindiff step : R) (mid : list R) (zoom : list R -> R -> res view) (good : list R -> Prop).
  Hypothesis (Hstep : 1 < step).
  Hypothesis zoom_ok : forall c zf v', good c -> 0 < zf -> zoom c zf = Ok v' -> v' <> [] /\ forall p, In p v' -> good (fst p).
  Lemma not_stops v d : is_gap mm v d -> mindiff < d -> ~ stops mm mindiff v.
  Proof.
    intros G L [N|[d' [G' L']]].
    - apply N. destruct G as [p [q [Hp [_ [Hq [D0 [Ed _]]]]]]]. exists q, p. split; [auto|]. split; [auto|]. intros E. rewrite E, Rminus_diag_eq, Rabs_R0 in Ed by reflexivity. lra.
    - rewrite (gap_unique _ _ _ _ G G') in L. lra.
  Qed.
  Lemma zloop_trace fuel : forall v zf cen off s, v <> [] -> (forall p, In p v -> good (fst p)) -> 0 < zf ->
    zloop fuel mm mindiff step mid zoom v zf cen off = Some (Ok s) ->
    let '(v', zf', cen', off') := s in
    (s = (v, zf, cen, off) /\ exists d, is_gap mm v d /\ d <= mindiff) \/
    (exists (k : nat) (p : nat -> list R * R) (w : nat -> view), (1 <= k)%nat /\ w O = v /\ w k = v' /\ zf' = zf * step ^ k /\
       (forall i, (i < k)%nat -> ~ stops mm mindiff (w i) /\ first_best mm (w i) (p i) /\ zoom (fst (p i)) (zf * step ^ (S i)) = Ok (w (S i))) /\
       stops mm mindiff v' /\ cen' = Some (fst (p (k - 1)%nat)) /\ off' = zipw Rminus (fst (p (k - 1)%nat)) mid).
  Proof.
    induction fuel as [|fuel IH]; intros v zf cen off s Nv Gv Pz H; [discriminate|].
    destruct (zloop_S mm mindiff step mid zoom fuel v zf cen off Nv) as [[_ E]|[[d [Gd [Ld E]]]|[d [p [Gd [Ld [Fb E]]]]]]]; rewrite E in H.
    - discriminate.
    - injection H as <-. left. split; [reflexivity|]. exists d. auto.
    - destruct (zoom (fst p) (zf * step)) as [v1|] eqn:Zv; [|discriminate].
      assert (P1 : 0 < zf * step) by (apply Rmult_lt_0_compat; lra).
      destruct (zoom_ok (fst p) (zf * step) v1 (Gv p (proj1 (first_best_In _ _ _ Fb))) P1 Zv) as [Nv1 Gv1].
      assert (NS := not_stops v d Gd Ld).
      destruct (extremum_first mm v1 Nv1) as [b [Eb _]]. rewrite Eb in H. destruct (forallb _ _) eqn:AZ.
      + injection H as <-. right. exists 1%nat, (fun _ => p), (fun i => match i with O => v | _ => v1 end).
        split; [lia|]. split; [reflexivity|]. split; [reflexivity|]. split; [simpl; ring|]. split.
        * intros i Hi. replace i with O by lia. split; [exact NS|]. split; [exact Fb|]. replace (zf * step ^ 1) with (zf * step) by (simpl; ring). exact Zv.
        * split; [left; apply (allzero_spec mm v1 b Eb Nv1); exact AZ|]. split; reflexivity.
      + assert (R := IH v1 (zf * step) (Some (fst p)) (zipw Rminus (fst p) mid) s Nv1 Gv1 P1 H). destruct s as [[[v' zf'] cen'] off'].
        destruct R as [[Es [d' G']]|[k [q [w [K1 [W0 [Wk [Ez [Hi [St [Ec Eo]]]]]]]]]]].
        * injection Es as -> -> -> ->. right. exists 1%nat, (fun _ => p), (fun i => match i with O => v | _ => v1 end).
          split; [lia|]. split; [reflexivity|]. split; [reflexivity|]. split; [simpl; ring|]. split.
          -- intros i Hi. replace i with O by lia. split; [exact NS|]. split; [exact Fb|]. replace (zf * step ^ 1) with (zf * step) by (simpl; ring). exact Zv.
          -- split; [right; exists d'; exact G'|]. split; reflexivity.
        * right. exists (S k), (fun i => match i with O => p | S i => q i end), (fun i => match i with O => v | S i => w i end).
          split; [lia|]. split; [reflexivity|]. split; [exact Wk|]. split; [rewrite Ez; simpl; ring|]. split.
          -- intros [|i] Hl.
             ++ split; [exact NS|]. split; [exact Fb|]. rewrite W0. replace (zf * step ^ 1) with (zf * step) by (simpl; ring). exact Zv.
             ++ destruct (Hi i ltac:(lia)) as [A [B C]]. split; [exact A|]. split; [exact B|]. rewrite <- C. f_equal. simpl. ring.
          -- split; [exact St|]. replace (S k - 1)%nat with (S (k - 1)) by lia. auto.
  Qed.
End trace.
