(** C31, C69: what the functions do to the caller's arrays *)
From Coq Require Import ZArith Lia List Reals Lra Bool FunctionalExtensionality.
From Coquelicot Require Import Complex.
From Verif Require Import Base NDim DFT Kernel Num Py M_fast_ffts M_shift M_convolve M_correlate M_chi2 M_register M_xcorr M_heap Spec8 L_heap.
Import ListNotations.
Open Scope R_scope.

(** *** C69 *)
(** register_images returns what the value-level model returns, whether or not the two arguments are the same array, and
    leaves every array as it was - also when it raises *)
Theorem C69_register_images :
  forall m l1 l2 a1 a2 has_fftw usfac rreg rerr zeromean maxoff nthreads use_np,
  holds m l1 (BReal a1) -> holds m l2 (BReal a2) ->
  exists m', register_images_mem has_fftw l1 l2 usfac rreg rerr zeromean maxoff nthreads use_np m =
               (register_images has_fftw a1 a2 usfac rreg rerr zeromean maxoff nthreads use_np, m') /\ unchanged m m'.
Proof.
  intros m l1 l2 a1 a2 hf us rr re zm mo nt np H1 H2. unfold register_images_mem.
  rewrite (mbind_ok _ _ _ _ _ (loadR_ok _ _ _ H1)), (mbind_ok _ _ _ _ _ (loadR_ok _ _ _ H2)). unfold register_images, shapes_differ.
  destruct (list_eq_dec Z.eq_dec (shape a1) (shape a2)) as [Es|Es]; cbn [negb]; [|exists m; split; [reflexivity|apply unchanged_refl]].
  destruct (maybe_mean zm m l1 a1 H1) as [l1' [m1 [E1 [U1 P1]]]]. rewrite (mbind_ok _ _ _ _ _ E1).
  destruct (maybe_mean zm m1 l2 a2 (U1 _ _ H2)) as [l2' [m2 [E2 [U2 P2]]]]. rewrite (mbind_ok _ _ _ _ _ E2). apply U2 in P1.
  destruct (replace_nan_step m2 l1' _ P1) as [k1 [m3 [b1 [E3 [U3 [Q1 [S1 [V1 _]]]]]]]]. rewrite (mbind_ok _ _ _ _ _ E3). apply U3 in P2.
  destruct (replace_nan_step m3 l2' _ P2) as [k2 [m4 [b2 [E4 [U4 [Q2 [S2 [V2 _]]]]]]]]. rewrite (mbind_ok _ _ _ _ _ E4). apply U4 in Q1.
  rewrite (mbind_ok _ _ _ _ _ (loadR_ok _ _ _ Q1)), (mbind_ok _ _ _ _ _ (loadR_ok _ _ _ Q2)). unfold lift. exists m4.
  split; [|eauto using unchanged_trans]. f_equal.
  assert (SH : shape b1 = shape a1) by (rewrite S1; unfold zero_mean; destruct zm; reflexivity). rewrite SH.
  replace (fun i => RtoC (nan0 (get b1 i))) with (fun i => RtoC (nan0 (get (zero_mean zm a1) i))) by (apply functional_extensionality; intros i; rewrite V1; reflexivity).
  replace (fun i => RtoC (nan0 (get b2 i))) with (fun i => RtoC (nan0 (get (zero_mean zm a2) i))) by (apply functional_extensionality; intros i; rewrite V2; reflexivity).
  reflexivity.
Qed.
Print Assumptions C69_register_images.

Theorem C69_chi2n_map :
  forall m e l1 l2 le a1 a2 er b nthreads zeromean use_np rall reduced huge,
  holds m l1 (BReal a1) -> holds m l2 (BReal a2) -> err_holds m le er ->
  exists m', chi2n_map_mem e l1 l2 le b nthreads zeromean use_np rall reduced huge m =
               (chi2n_map e a1 a2 er b nthreads zeromean use_np rall reduced huge, m') /\ unchanged m m'.
Proof.
  intros m e l1 l2 le a1 a2 er b nt zm np ra rd hu H1 H2 He. unfold chi2n_map_mem.
  rewrite (mbind_ok _ _ _ _ _ (loadR_ok _ _ _ H1)), (mbind_ok _ _ _ _ _ (loadR_ok _ _ _ H2)). unfold chi2n_map, shapes_differ.
  destruct (list_eq_dec Z.eq_dec (shape a1) (shape a2)) as [Es|Es]; cbn [negb]; [|exists m; split; [reflexivity|apply unchanged_refl]].
  destruct (maybe_mean zm m l1 a1 H1) as [l1' [m1 [E1 [U1 P1]]]]. rewrite (mbind_ok _ _ _ _ _ E1).
  destruct (maybe_mean zm m1 l2 a2 (U1 _ _ H2)) as [l2' [m2 [E2 [U2 P2]]]]. rewrite (mbind_ok _ _ _ _ _ E2). apply U2 in P1.
  destruct (nan_to_num_step m2 l1' _ P1) as [m3 [E3 [U3 [Q1 L3]]]]. rewrite (mbind_ok _ _ _ _ _ E3). apply U3 in P2.
  destruct (nan_to_num_step m3 l2' _ P2) as [m4 [E4 [U4 [Q2 L4]]]]. rewrite (mbind_ok _ _ _ _ _ E4). apply U4 in Q1.
  assert (U : unchanged m m4) by eauto using unchanged_trans.
  set (k1 := length m2) in *. set (k2 := length m3) in *. assert (K12 : k1 <> k2) by (unfold k1, k2; lia).
  assert (Lm : (length m <= k1)%nat).
  { unfold k1. destruct (Nat.le_gt_cases (length m) (length m2)) as [G|G]; [auto|exfalso].
    assert (UU : unchanged m m2) by eauto using unchanged_trans. destruct (nth_error m (length m2)) as [bb|] eqn:EE; [|apply nth_error_None in EE; lia].
    apply UU in EE. apply holds_lt in EE. lia. }
  destruct er as [|s|er]; destruct le as [|s'|le]; try contradiction.
  - (* None *) rewrite (mbind_ok _ _ _ _ _ (loadR_ok _ _ _ Q1)), (mbind_ok _ _ _ _ _ (loadR_ok _ _ _ Q1)), (mbind_ok _ _ _ _ _ (loadR_ok _ _ _ Q2)).
    unfold lift. exists m4. split; [reflexivity|exact U].
  - (* scalar *) cbn in He. subst s'. destruct (Req_EM_T s 0); [exists m4; split; [reflexivity|exact U]|].
    rewrite (mbind_ok _ _ _ _ _ (loadR_ok _ _ _ Q1)), (mbind_ok _ _ _ _ _ (loadR_ok _ _ _ Q1)), (mbind_ok _ _ _ _ _ (loadR_ok _ _ _ Q2)).
    unfold lift. exists m4. split; [reflexivity|exact U].
  - (* array *) cbn in He. assert (He' := U _ _ He). destruct (nan_to_num_step m4 le _ He') as [m5 [E5 [U5 [Q3 L5]]]]. rewrite (mbind_ok _ _ _ _ _ E5).
    rewrite (mbind_ok _ _ _ _ _ (loadR_ok _ _ _ Q3)). cbn [amap shape].
    destruct (list_eq_dec Z.eq_dec (shape er) (shape a1)) as [Ee|Ee]; cbn [negb]; [|exists m5; split; [reflexivity|eauto using unchanged_trans]].
    set (k3 := length m4) in *. assert (K13 : k1 <> k3) by (unfold k3, k1, k2 in *; lia). assert (K23 : k2 <> k3) by (unfold k3, k1, k2 in *; lia).
    apply U5 in Q1. apply U5 in Q2.
    rewrite (mbind_ok _ _ _ _ _ (put_atR _ _ _ _ _ Q2)).
    pose (z := fun i : list Z => if Req_EM_T (nan0 (get er i)) 0 then true else false).
    match goal with |- context [set_nth k2 (BReal (put _ ?zz _)) m5] => change zz with z end.
    match goal with |- context [set_nth k2 ?b m5] => set (b2 := b) end. set (m6 := set_nth k2 b2 m5).
    assert (Q1' : holds m6 k1 (BReal (amap (fun x => Fin (nan0 x)) (zero_mean zm a1)))) by (apply set_nth_holds; auto).
    rewrite (mbind_ok _ _ _ _ _ (put_atR _ _ _ _ _ Q1')).
    match goal with |- context [set_nth k1 ?b m6] => set (b1 := b) end. set (m7 := set_nth k1 b1 m6).
    assert (Q3' : holds m7 k3 (BReal (amap (fun x => Fin (nan0 x)) er))) by (apply set_nth_holds; auto; apply set_nth_holds; auto).
    rewrite (mbind_ok _ _ _ _ _ (put_atR _ _ _ _ _ Q3')).
    match goal with |- context [set_nth k3 ?b m7] => set (b3 := b) end. set (m8 := set_nth k3 b3 m7).
    assert (R3 : holds m8 k3 b3) by (apply set_nth_same; eapply holds_lt; eauto).
    assert (R1 : holds m8 k1 b1) by (apply set_nth_holds; auto; apply set_nth_same; eapply holds_lt; eauto).
    assert (R2 : holds m8 k2 b2) by (apply set_nth_holds; auto; apply set_nth_holds; auto; apply set_nth_same; eapply holds_lt; eauto).
    rewrite (mbind_ok _ _ _ _ _ (loadR_ok _ _ _ R3)), (mbind_ok _ _ _ _ _ (loadR_ok _ _ _ R1)).
    assert (U8 : unchanged m m8).
    { apply unchanged_store; [apply unchanged_store; [apply unchanged_store; [eauto using unchanged_trans|]|]|]; unfold k3, k2, k1 in *; lia. }
    assert (G1 : forall i, nan0 (get (put (amap (fun x => Fin (nan0 x)) (zero_mean zm a1)) z (Fin 0)) i) = if z i then 0 else nan0 (get (zero_mean zm a1) i)).
    { intros i. cbn [put amap get]. destruct (z i); reflexivity. }
    assert (G2 : forall i, nan0 (get (put (amap (fun x => Fin (nan0 x)) (zero_mean zm a2)) z (Fin 0)) i) = if z i then 0 else nan0 (get (zero_mean zm a2) i)).
    { intros i. cbn [put amap get]. destruct (z i); reflexivity. }
    assert (G3 : forall i, nan0 (get (put (amap (fun x => Fin (nan0 x)) er) z (Fin 1)) i) = if z i then 1 else nan0 (get er i)).
    { intros i. cbn [put amap get]. destruct (z i); reflexivity. }
    assert (Z' : forall i, z i = if Req_EM_T (nan0 (get er i)) 0 then true else false) by reflexivity.
    unfold lift at 1. unfold mbind at 1.
    match goal with |- context [correlate2d ?x1 ?x2 (fin_arr ?s ?f) (fin_arr ?s ?g) b nt np hu] =>
      replace (correlate2d x1 x2 (fin_arr s f) (fin_arr s g) b nt np hu) with
        (correlate2d x1 x2 (fin_arr s (fun i => (if z i then 0 else nan0 (get (zero_mean zm a1) i)) ^ 2)) (fin_arr s (fun i => 1 / (if z i then 1 else nan0 (get er i)) ^ 2)) b nt np hu) end.
    2:{ f_equal; unfold fin_arr; f_equal; apply functional_extensionality; intros i; [rewrite G1|rewrite G3]; reflexivity. }
    destruct (correlate2d _ _ _ _ _ _ _ _) as [t3|x] eqn:C3.
    2:{ exists m8. split; [|exact U8]. unfold z in C3. cbv beta in C3. cbv zeta beta. try rewrite C3. reflexivity. }
    rewrite (mbind_ok _ _ _ _ _ (loadR_ok _ _ _ R1)), (mbind_ok _ _ _ _ _ (loadR_ok _ _ _ R2)). unfold lift. exists m8. split; [|exact U8]. f_equal.
    unfold z in C3. cbv beta in C3. cbv zeta beta. try rewrite C3. cbn [bind].
    replace (fun i => nan0 (get (put (amap (fun x => Fin (nan0 x)) (zero_mean zm a1)) z (Fin 0)) i)) with (fun i => if z i then 0 else nan0 (get (zero_mean zm a1) i)) by (apply functional_extensionality; intros i; rewrite G1; reflexivity).
    assert (GG : forall F : R -> R -> R, (fun i => F (nan0 (get (put (amap (fun x => Fin (nan0 x)) (zero_mean zm a2)) z (Fin 0)) i)) (nan0 (get (put (amap (fun x => Fin (nan0 x)) er) z (Fin 1)) i))) =
        (fun i => F (if z i then 0 else nan0 (get (zero_mean zm a2) i)) (if z i then 1 else nan0 (get er i)))).
    { intros F. apply functional_extensionality; intros i. rewrite G2, G3. reflexivity. }
    rewrite (GG (fun x y => x ^ 2 / y ^ 2)), (GG (fun x y => x / y ^ 2)). reflexivity.
Qed.
Print Assumptions C69_chi2n_map.

Theorem C69_chi2_shift :
  forall m e l1 l2 le a1 a2 er us b nthreads use_np zeromean nfitted verbose ret_err ret_arr mas mns huge,
  holds m l1 (BReal a1) -> holds m l2 (BReal a2) -> err_holds m le er ->
  exists m', chi2_shift_mem e l1 l2 le us b nthreads use_np zeromean nfitted verbose ret_err ret_arr mas mns huge m =
               (chi2_shift e a1 a2 er us b nthreads use_np zeromean nfitted verbose ret_err ret_arr mas mns huge, m') /\ unchanged m m'.
Proof.
  intros m e l1 l2 le a1 a2 er us b nt np zm nf vb re ra mas mns hu H1 H2 He. unfold chi2_shift_mem.
  destruct (C69_chi2n_map m e l1 l2 le a1 a2 er b nt zm np true false hu H1 H2 He) as [m' [E U]].
  unfold mbind at 1. rewrite E. unfold chi2_shift, chi2_shift_tail.
  destruct (chi2n_map e a1 a2 er b nt zm np true false hu) as [r|x]; [|exists m'; split; [reflexivity|exact U]].
  destruct (nan_to_num_step m' l1 _ (U _ _ H1)) as [m1 [E1 [U1 [Q1 _]]]]. rewrite (mbind_ok _ _ _ _ _ E1).
  destruct (nan_to_num_step m1 l2 _ (U1 _ _ (U _ _ H2))) as [m2 [E2 [U2 [Q2 _]]]]. rewrite (mbind_ok _ _ _ _ _ E2).
  exists m2. split; [|eauto using unchanged_trans].
  rewrite (mbind_ok _ _ _ _ _ (loadR_ok _ _ _ (U2 _ _ Q1))). reflexivity.
Qed.
Print Assumptions C69_chi2_shift.

Theorem C69_cross_correlation_shifts :
  forall m e agpy l1 l2 le1 le2 a1 a2 er1 er2 maxoff gaussfit rerr zeromean b nthreads use_np huge,
  holds m l1 (BReal a1) -> holds m l2 (BReal a2) -> opt_holds m le1 er1 -> opt_holds m le2 er2 ->
  exists m', cross_correlation_shifts_mem e agpy l1 l2 le1 le2 maxoff gaussfit rerr zeromean b nthreads use_np huge m =
               (cross_correlation_shifts e agpy a1 a2 er1 er2 maxoff gaussfit rerr zeromean b nthreads use_np huge, m') /\ unchanged m m'.
Proof.
  intros m e ag l1 l2 le1 le2 a1 a2 er1 er2 mo gf re zm b nt np hu H1 H2 He1 He2. unfold cross_correlation_shifts_mem.
  rewrite (mbind_ok _ _ _ _ _ (loadR_ok _ _ _ H1)), (mbind_ok _ _ _ _ _ (loadR_ok _ _ _ H2)). unfold shapes_differ.
  destruct (list_eq_dec Z.eq_dec (shape a1) (shape a2)) as [Es|Es]; cbn [negb].
  2:{ exists m. split; [|apply unchanged_refl]. unfold cross_correlation_shifts. destruct (list_eq_dec Z.eq_dec (shape a1) (shape a2)); [contradiction|reflexivity]. }
  destruct (maybe_mean zm m l1 a1 H1) as [l1' [m1 [E1 [U1 P1]]]]. rewrite (mbind_ok _ _ _ _ _ E1).
  destruct (maybe_mean zm m1 l2 a2 (U1 _ _ H2)) as [l2' [m2 [E2 [U2 P2]]]]. rewrite (mbind_ok _ _ _ _ _ E2). apply U2 in P1.
  destruct (nan_to_num_step m2 l1' _ P1) as [m3 [E3 [U3 [Q1 L3]]]]. rewrite (mbind_ok _ _ _ _ _ E3). apply U3 in P2.
  destruct (nan_to_num_step m3 l2' _ P2) as [m4 [E4 [U4 [Q2 L4]]]]. rewrite (mbind_ok _ _ _ _ _ E4). apply U4 in Q1.
  rewrite (mbind_ok _ _ _ _ _ (loadR_ok _ _ _ Q1)), (mbind_ok _ _ _ _ _ (loadR_ok _ _ _ Q2)).
  assert (U : unchanged m m4) by eauto using unchanged_trans.
  assert (O : forall o v, opt_holds m o v -> match o with None => ret None | Some l => do! a := loadR l in ret (Some a) end m4 = (Ok v, m4)).
  { intros [l|] [v|] Ho; try contradiction; [|reflexivity]. rewrite (mbind_ok _ _ _ _ _ (loadR_ok _ _ _ (U _ _ Ho))). reflexivity. }
  rewrite (mbind_ok _ _ _ _ _ (O _ _ He1)), (mbind_ok _ _ _ _ _ (O _ _ He2)). exists m4. split; [|exact U]. unfold lift. f_equal.
  unfold cross_correlation_shifts. cbn [zero_mean amap shape].
  replace (shape (zero_mean zm a1)) with (shape a1) by (destruct zm; reflexivity). replace (shape (zero_mean zm a2)) with (shape a2) by (destruct zm; reflexivity).
  reflexivity.
Qed.
Print Assumptions C69_cross_correlation_shifts.

Theorem C69_shiftnd :
  forall m l a has_fftw offset phase nthreads use_np rabs rreal,
  holds m l (BReal a) ->
  exists m', shiftnd_mem has_fftw l offset phase nthreads use_np rabs rreal m =
               (shiftnd has_fftw (of_num a) offset phase nthreads use_np rabs rreal, m') /\ unchanged m m'.
Proof.
  intros m l a hf off ph nt np ra rr H. unfold shiftnd_mem. rewrite (mbind_ok _ _ _ _ _ (loadR_ok _ _ _ H)).
  destruct (any isnan a) eqn:E.
  - destruct (nan_to_num_step m l a H) as [m' [E' [U [Q _]]]]. rewrite (mbind_ok _ _ _ _ _ E'), (mbind_ok _ _ _ _ _ (loadR_ok _ _ _ Q)).
    exists m'. split; [reflexivity|exact U].
  - rewrite (mbind_ok _ _ _ _ _ (eq_refl : ret l m = (Ok l, m))), (mbind_ok _ _ _ _ _ (loadR_ok _ _ _ H)). exists m. split; [reflexivity|apply unchanged_refl].
Qed.
Print Assumptions C69_shiftnd.

(** one array in all three roles, with a NaN, a zero and a number in it *)
Definition tri : arr num := mk2 2 2 (fun y x => if (y =? 0)%Z then (if (x =? 0)%Z then NaN else Fin 0) else Fin 3).
Example C69_nonvacuous : holds [BReal tri] 0%nat (BReal tri) /\ err_holds [BReal tri] (ELArr 0%nat) (ErrArr tri) /\
  unchanged [BReal tri] [BReal tri; BReal tri] /\ ~ unchanged [BReal tri] [BReal (amap (fun x => Fin (nan0 x)) tri)].
Proof.
  split; [reflexivity|]. split; [reflexivity|]. split; [apply (unchanged_app [BReal tri] [BReal tri])|].
  intros U. specialize (U 0%nat _ eq_refl). unfold holds in U. cbn in U. injection U as E.
  apply (f_equal (fun f => f [0; 0]%Z)) in E. cbn in E. discriminate.
Qed.

(** *** C31: convolvend *)
Lemma asarray_step m l b : holds m l b -> (forall a, b <> BExt a) ->
  exists l' m' a, asarray_complex l m = (Ok l', m') /\ unchanged m m' /\ holds m' l' (BCplx a) /\
    ((b = BCplx a /\ l' = l /\ m' = m) \/ (exists r, b = BReal r /\ a = of_num r /\ l' = length m /\ m' = m ++ [BCplx a])).
Proof.
  intros H N. unfold asarray_complex. assert (L : load l m = (Ok b, m)) by (unfold load; rewrite H; reflexivity). rewrite (mbind_ok _ _ _ _ _ L).
  destruct b as [r|c|x].
  - eexists _, _, _. split; [reflexivity|]. split; [apply unchanged_app|]. split; [apply holds_new|]. right. exists r. auto.
  - eexists _, _, _. split; [reflexivity|]. split; [apply unchanged_refl|]. split; [exact H|]. left. auto.
  - exfalso. eapply N; reflexivity.
Qed.

(** contents as complex pixels *)
Definition as_complex (b : buf) : option (arr cnum) := match b with BReal r => Some (of_num r) | BCplx c => Some c | BExt _ => None end.
Definition zeroed (c : arr cnum) : arr cnum := put c (fun i => cisnan (get c i)) (Fin 0, Fin 0).
Definition renan (c : arr cnum) : arr cnum := put c (fun i => cisnan (get c i)) (NaN, Fin 0).

Lemma zeroed_clean c i : cisnan (get (zeroed c) i) = false.
Proof. unfold zeroed. cbn [put get]. destruct (cisnan (get c i)) eqn:E; [reflexivity|exact E]. Qed.
Lemma put_none {A} (c : arr A) (p : list Z -> bool) v : (forall i, p i = false) -> put c p v = c.
Proof. intros H. destruct c as [s g]. unfold put. cbn [shape get]. f_equal. apply functional_extensionality. intros i. rewrite H. reflexivity. Qed.
Lemma zeroed_zeroed c : zeroed (zeroed c) = zeroed c.
Proof. unfold zeroed at 1. apply put_none. apply zeroed_clean. Qed.
Lemma put_zeroed c : put (zeroed c) (fun i => cisnan (get c i)) (NaN, Fin 0) = renan c.
Proof. unfold zeroed, renan, put. cbn [shape get]. f_equal. apply functional_extensionality. intros i. destruct (cisnan (get c i)); reflexivity. Qed.
(** the value-level model only sees NaN masks and zeroed values *)
Lemma nan_zeroed_put c : nan_zeroed (put (zeroed c) (fun i => cisnan (get c i)) (NaN, NaN)) = nan_zeroed c.
Proof. unfold nan_zeroed, zeroed, put, amap. cbn [shape get]. f_equal. apply functional_extensionality. intros i. destruct (cisnan (get c i)) eqn:E; [reflexivity|]. rewrite E. reflexivity. Qed.
Lemma nan_zeroed_zeroed c : nan_zeroed (zeroed c) = nan_zeroed c.
Proof. unfold nan_zeroed, zeroed, put, amap. cbn [shape get]. f_equal. apply functional_extensionality. intros i. destruct (cisnan (get c i)) eqn:E; [cbn; unfold cnan0; reflexivity|]. rewrite E. reflexivity. Qed.
Lemma convolvend_cleaned hf npc lio a k b fill crop rf fs fp pp ia ie mw nk unp nt :
  convolvend hf npc lio (put (zeroed a) (fun i => cisnan (get a i)) (NaN, NaN)) (zeroed k) b fill crop rf fs fp pp ia ie mw nk unp nt =
  convolvend hf npc lio a k b fill crop rf fs fp pp ia ie mw nk unp nt.
Proof.
  unfold convolvend. rewrite nan_zeroed_put, nan_zeroed_zeroed.
  replace (fun i => if cisnan (get (put (zeroed a) (fun j => cisnan (get a j)) (NaN, NaN)) i) && ia then RtoC 0 else RtoC 1)
    with (fun i => if cisnan (get a i) && ia then RtoC 0 else RtoC 1); [reflexivity|].
  apply functional_extensionality. intros i. unfold zeroed, put. cbn [get]. destruct (cisnan (get a i)) eqn:E; [reflexivity|]. rewrite E. reflexivity.
Qed.
Lemma mbind_lift {A B} (r : res A) (f : A -> M B) m : mbind (lift r) f m = match r with Ok x => f x m | Raise e => (Raise e, m) end.
Proof. unfold mbind, lift. destruct r; reflexivity. Qed.

Section Conv.
Variables (hf npc lio : bool) (b : boundary) (fill : num) (crop rf fs fp pp ia ie : bool) (mw : R) (nk : normk) (unp : bool) (nt : Z).
Let cm la lk := convolvend_mem hf npc lio la lk b fill crop rf fs fp pp ia ie mw nk unp nt.
Let cv a k := convolvend hf npc lio a k b fill crop rf fs fp pp ia ie mw nk unp nt.

(** the work after the conversions, two different arrays *)
Definition conv_tail (array kernel : loc) : M convres :=
  do! a := loadC array in
  do! k := loadC kernel in
  if negb (Nat.eqb (ndim a) (ndim k)) then raise PlainException else
  let nanmaskarray := fun i => cisnan (get a i) in
  do! _ := put_atC array nanmaskarray (Fin 0, Fin 0) in
  do! k := loadC kernel in
  let nanmaskkernel := fun i => cisnan (get k i) in
  do! _ := put_atC kernel nanmaskkernel (Fin 0, Fin 0) in
  do! a := loadC array in
  do! k := loadC kernel in
  do! kernel := (match nk with NkFalse => ret kernel | _ => alloc (BCplx k) end) in
  do! r := lift (convolvend hf npc lio (put a nanmaskarray (NaN, NaN)) k b fill crop rf fs fp pp ia ie mw nk unp nt) in
  do! _ := put_atC array nanmaskarray (NaN, Fin 0) in
  do! _ := put_atC kernel nanmaskkernel (NaN, Fin 0) in
  ret r.
Lemma tail_distinct m la lk a k : la <> lk -> holds m la (BCplx a) -> holds m lk (BCplx k) -> ndim a = ndim k ->
  exists m', conv_tail la lk m = (cv a k, m') /\
    (forall l c, l <> la -> l <> lk -> holds m l c -> holds m' l c) /\
    holds m' la (BCplx (match cv a k with Ok _ => renan a | Raise _ => zeroed a end)) /\
    holds m' lk (BCplx (match cv a k, nk with Ok _, NkFalse => renan k | _, _ => zeroed k end)).
Proof.
  intros Hd Ha Hk Hn. unfold conv_tail. rewrite (mbind_ok _ _ _ _ _ (loadC_ok _ _ _ Ha)), (mbind_ok _ _ _ _ _ (loadC_ok _ _ _ Hk)).
  rewrite Hn, Nat.eqb_refl. cbn [negb]. rewrite (mbind_ok _ _ _ _ _ (put_atC_ok _ _ _ _ _ Ha)). fold (zeroed a).
  set (m1 := set_nth la (BCplx (zeroed a)) m). assert (Ha1 : holds m1 la (BCplx (zeroed a))) by (apply set_nth_same; eapply holds_lt; eauto).
  assert (Hk1 : holds m1 lk (BCplx k)) by (apply set_nth_holds; auto). rewrite (mbind_ok _ _ _ _ _ (loadC_ok _ _ _ Hk1)).
  rewrite (mbind_ok _ _ _ _ _ (put_atC_ok _ _ _ _ _ Hk1)). fold (zeroed k).
  set (m2 := set_nth lk (BCplx (zeroed k)) m1). assert (Hk2 : holds m2 lk (BCplx (zeroed k))) by (apply set_nth_same; eapply holds_lt; eauto).
  assert (Ha2 : holds m2 la (BCplx (zeroed a))) by (apply set_nth_holds; auto).
  rewrite (mbind_ok _ _ _ _ _ (loadC_ok _ _ _ Ha2)), (mbind_ok _ _ _ _ _ (loadC_ok _ _ _ Hk2)).
  assert (F2 : forall l c, l <> la -> l <> lk -> holds m l c -> holds m2 l c) by (intros; apply set_nth_holds; auto; apply set_nth_holds; auto).
  assert (HK : exists lk' m3, (match nk with NkFalse => ret lk | _ => alloc (BCplx (zeroed k)) end) m2 = (Ok lk', m3) /\ unchanged m2 m3 /\ holds m3 lk' (BCplx (zeroed k)) /\ la <> lk' /\
     match nk with NkFalse => lk' = lk | _ => (length m2 <= lk')%nat end).
  { assert (AL : exists lk' m3, alloc (BCplx (zeroed k)) m2 = (Ok lk', m3) /\ unchanged m2 m3 /\ holds m3 lk' (BCplx (zeroed k)) /\ la <> lk' /\ (length m2 <= lk')%nat).
    { exists (length m2), (m2 ++ [BCplx (zeroed k)]). split; [reflexivity|]. split; [apply unchanged_app|]. split; [apply holds_new|]. apply holds_lt in Ha2. split; lia. }
    destruct nk; [|exact AL|exact AL]. exists lk, m2. split; [reflexivity|]. split; [apply unchanged_refl|]. auto. }
  destruct HK as [lk' [m3 [E3 [U3 [Hk3 [Hd3 L3]]]]]]. rewrite (mbind_ok _ _ _ _ _ E3). rewrite mbind_lift. rewrite convolvend_cleaned. fold (cv a k).
  apply U3 in Ha2. assert (Hk2' := U3 _ _ Hk2). assert (F3 : forall l c, l <> la -> l <> lk -> holds m l c -> holds m3 l c) by auto.
  destruct (cv a k) as [r|x] eqn:EC.
  2:{ exists m3. split; [reflexivity|]. split; [exact F3|]. split; [exact Ha2|]. exact Hk2'. }
  rewrite (mbind_ok _ _ _ _ _ (put_atC_ok _ _ _ _ _ Ha2)). rewrite put_zeroed. set (m4 := set_nth la (BCplx (renan a)) m3).
  assert (Hk4 : holds m4 lk' (BCplx (zeroed k))) by (apply set_nth_holds; auto). rewrite (mbind_ok _ _ _ _ _ (put_atC_ok _ _ _ _ _ Hk4)). rewrite put_zeroed.
  set (m5 := set_nth lk' (BCplx (renan k)) m4). exists m5. split; [reflexivity|]. assert (Ha4 : holds m4 la (BCplx (renan a))) by (apply set_nth_same; eapply holds_lt; eauto).
  split; [|split].
  - intros l c N1 N2 Hl. apply set_nth_holds; [|apply set_nth_holds; auto]. assert (LL := holds_lt _ _ _ Hl). destruct nk; [subst; auto| |];
    assert (length m2 = length m) by (unfold m2, m1; rewrite !set_nth_length; reflexivity); lia.
  - apply set_nth_holds; auto.
  - destruct nk; [subst lk'; apply set_nth_same; eapply holds_lt; eauto| |];
    (apply set_nth_holds; [apply holds_lt in Hk2; lia|apply set_nth_holds; auto]).
Qed.
Lemma tail_same m la a : holds m la (BCplx a) ->
  exists m', conv_tail la la m = (cv a a, m') /\ (forall l c, l <> la -> holds m l c -> holds m' l c) /\
    holds m' la (BCplx (match cv a a with Ok _ => renan a | Raise _ => zeroed a end)).
Proof.
  intros Ha. unfold conv_tail. rewrite !(mbind_ok _ _ _ _ _ (loadC_ok _ _ _ Ha)). rewrite Nat.eqb_refl. cbn [negb]. rewrite (mbind_ok _ _ _ _ _ (put_atC_ok _ _ _ _ _ Ha)). fold (zeroed a).
  set (m1 := set_nth la (BCplx (zeroed a)) m). assert (Ha1 : holds m1 la (BCplx (zeroed a))) by (apply set_nth_same; eapply holds_lt; eauto).
  rewrite (mbind_ok _ _ _ _ _ (loadC_ok _ _ _ Ha1)). rewrite (mbind_ok _ _ _ _ _ (put_atC_ok _ _ _ _ _ Ha1)). fold (zeroed (zeroed a)). rewrite zeroed_zeroed.
  set (m2 := set_nth la (BCplx (zeroed a)) m1). assert (Ha2 : holds m2 la (BCplx (zeroed a))) by (apply set_nth_same; eapply holds_lt; eauto).
  rewrite !(mbind_ok _ _ _ _ _ (loadC_ok _ _ _ Ha2)).
  assert (HK : exists lk' m3, (match nk with NkFalse => ret la | _ => alloc (BCplx (zeroed a)) end) m2 = (Ok lk', m3) /\ unchanged m2 m3 /\ holds m3 lk' (BCplx (zeroed a)) /\
     (lk' = la \/ (length m2 <= lk')%nat)).
  { assert (AL : exists lk' m3, alloc (BCplx (zeroed a)) m2 = (Ok lk', m3) /\ unchanged m2 m3 /\ holds m3 lk' (BCplx (zeroed a)) /\ (lk' = la \/ (length m2 <= lk')%nat)).
    { exists (length m2), (m2 ++ [BCplx (zeroed a)]). split; [reflexivity|]. split; [apply unchanged_app|]. split; [apply holds_new|]. auto. }
    destruct nk; [|exact AL|exact AL]. exists la, m2. split; [reflexivity|]. split; [apply unchanged_refl|]. auto. }
  destruct HK as [lk' [m3 [E3 [U3 [Hk3 L3]]]]]. rewrite (mbind_ok _ _ _ _ _ E3). rewrite mbind_lift. rewrite convolvend_cleaned. fold (cv a a). apply U3 in Ha2.
  assert (F3 : forall l c, l <> la -> holds m l c -> holds m3 l c) by (intros; apply U3; apply set_nth_holds; auto; apply set_nth_holds; auto).
  destruct (cv a a) as [r|x] eqn:EC; [|exists m3; split; [reflexivity|]; split; [exact F3|exact Ha2]].
  rewrite (mbind_ok _ _ _ _ _ (put_atC_ok _ _ _ _ _ Ha2)). rewrite put_zeroed. set (m4 := set_nth la (BCplx (renan a)) m3).
  assert (Ha4 : holds m4 la (BCplx (renan a))) by (apply set_nth_same; eapply holds_lt; eauto).
  assert (LM : length m2 = length m) by (unfold m2, m1; rewrite !set_nth_length; reflexivity).
  destruct L3 as [->|L3].
  - rewrite (mbind_ok _ _ _ _ _ (put_atC_ok _ _ _ _ _ Ha4)). rewrite (put_none _ _ _ (zeroed_clean a)).
    eexists. split; [reflexivity|]. split; [intros l c N1 Hl; apply set_nth_holds; auto; apply set_nth_holds; auto|]. apply set_nth_same. eapply holds_lt; eauto.
  - assert (Nl : la <> lk') by (apply holds_lt in Ha; lia). assert (Hk4 : holds m4 lk' (BCplx (zeroed a))) by (apply set_nth_holds; auto).
    rewrite (mbind_ok _ _ _ _ _ (put_atC_ok _ _ _ _ _ Hk4)). eexists. split; [reflexivity|]. split; [|apply set_nth_holds; auto].
    intros l c N1 Hl. apply set_nth_holds; [apply holds_lt in Hl; lia|apply set_nth_holds; auto].
Qed.
End Conv.

(** what the call leaves behind in a complex array it was given *)
Inductive left_as := Untouched | NanReset | NanZeroed.
Definition leaves (c : arr cnum) (w : left_as) (c' : arr cnum) : Prop :=
  shape c' = shape c /\ forall i, get c' i = if cisnan (get c i) then (match w with Untouched => get c i | NanReset => (NaN, Fin 0) | NanZeroed => (Fin 0, Fin 0) end) else get c i.

Definition conv_leaves (np_complex_ok : bool) (nd : bool) (r : res convres) (nk : normk) (is_kernel same : bool) : left_as :=
  if negb np_complex_ok then Untouched else if negb nd then Untouched else
  match r with
  | Raise _ => NanZeroed
  | Ok _ => match nk with NkFalse => NanReset | _ => if is_kernel && negb same then NanZeroed else NanReset end
  end.

(** everything at once: the value returned is that of the value-level model (aliasing included); arrays other than complex
    arguments are untouched; complex arguments are left as stated *)
Theorem C31_effects :
  forall m la lk ba bk a k hf npc lio b fill crop rf fs fp pp ia ie mw nk unp nt,
  holds m la ba -> holds m lk bk -> as_complex ba = Some a -> as_complex bk = Some k ->
  exists m',
    let r := convolvend hf npc lio a k b fill crop rf fs fp pp ia ie mw nk unp nt in
    convolvend_mem hf npc lio la lk b fill crop rf fs fp pp ia ie mw nk unp nt m = (r, m') /\
    (forall l c, holds m l c -> (l <> la /\ l <> lk) \/ (exists x, c = BReal x) -> holds m' l c) /\
    (ba = BCplx a -> exists a', holds m' la (BCplx a') /\ leaves a (conv_leaves npc (Nat.eqb (ndim a) (ndim k)) r nk false (Nat.eqb la lk)) a') /\
    (bk = BCplx k -> exists k', holds m' lk (BCplx k') /\ leaves k (conv_leaves npc (Nat.eqb (ndim a) (ndim k)) r nk true (Nat.eqb la lk)) k').
Proof.
  intros m la lk ba bk a k hf npc lio b fill crop rf fs fp pp ia ie mw nk unp nt Ha Hk Ca Ck.
  assert (LR : forall c, leaves c Untouched c) by (intros c; split; [reflexivity|]; intros i; destruct (cisnan _); reflexivity).
  assert (LN : forall c, leaves c NanReset (renan c)) by (intros c; split; reflexivity).
  assert (LZ : forall c, leaves c NanZeroed (zeroed c)) by (intros c; split; reflexivity).
  cbv zeta. unfold convolvend_mem. destruct npc; cbn [negb].
  2:{ exists m. split; [reflexivity|]. split; [auto|]. unfold conv_leaves. cbn [negb]. split; intros ->; eauto. }
  destruct (asarray_step m la ba Ha) as [la' [m1 [a' [E1 [U1 [P1 D1]]]]]]; [intros x ->; discriminate|]. rewrite (mbind_ok _ _ _ _ _ E1).
  destruct (asarray_step m1 lk bk (U1 _ _ Hk)) as [lk' [m2 [k' [E2 [U2 [P2 D2]]]]]]; [intros x ->; discriminate|]. rewrite (mbind_ok _ _ _ _ _ E2). apply U2 in P1.
  assert (a' = a) by (destruct D1 as [[-> _]|[r [-> [-> _]]]]; cbn in Ca; congruence). subst a'.
  assert (k' = k) by (destruct D2 as [[-> _]|[r [-> [-> _]]]]; cbn in Ck; congruence). subst k'.
  assert (U : unchanged m m2) by eauto using unchanged_trans.
  assert (M1 : (length m <= length m1)%nat) by (destruct D1 as [[_ [_ ->]]|[r [_ [_ [_ ->]]]]]; [lia|rewrite app_length; simpl; lia]).
  assert (Fa : ba = BCplx a -> la' = la) by (intros Q; destruct D1 as [[_ [-> _]]|[r [-> _]]]; [auto|congruence]).
  assert (Fk : bk = BCplx k -> lk' = lk) by (intros Q; destruct D2 as [[_ [-> _]]|[r [-> _]]]; [auto|congruence]).
  assert (OL : forall l c, holds m l c -> (l <> la /\ l <> lk) \/ (exists x, c = BReal x) -> l <> la' /\ l <> lk').
  { intros l c Hl [[N1 N2]|[x ->]].
    - apply holds_lt in Hl. destruct D1 as [[_ [-> _]]|[r [_ [_ [-> _]]]]], D2 as [[_ [-> _]]|[r' [_ [_ [-> _]]]]]; lia.
    - split; intros ->.
      + destruct D1 as [[-> [-> _]]|[r [_ [_ [-> _]]]]]; [unfold holds in *; congruence|]. apply holds_lt in Hl. lia.
      + destruct D2 as [[-> [-> _]]|[r [_ [_ [-> _]]]]]; [unfold holds in *; congruence|]. apply holds_lt in Hl. lia. }
  fold (conv_tail hf true lio b fill crop rf fs fp pp ia ie mw nk unp nt la' lk').
  destruct (Nat.eqb (ndim a) (ndim k)) eqn:EN.
  2:{ unfold conv_tail. rewrite (mbind_ok _ _ _ _ _ (loadC_ok _ _ _ P1)), (mbind_ok _ _ _ _ _ (loadC_ok _ _ _ P2)). rewrite EN. cbn [negb].
      exists m2. split; [unfold convolvend; cbn [negb]; rewrite EN; reflexivity|]. split; [auto|]. unfold conv_leaves. cbn [negb]. split; intros ->; eauto. }
  apply Nat.eqb_eq in EN. unfold conv_leaves. cbn [negb].
  destruct (Nat.eq_dec la' lk') as [El|El].
  - subst lk'. assert (k = a) by (unfold holds in *; congruence). subst k.
    destruct (tail_same hf true lio b fill crop rf fs fp pp ia ie mw nk unp nt m2 la' a P1) as [m' [ET [F' Ha']]]. rewrite ET. exists m'. split; [reflexivity|].
    split; [intros l c Hl Q; apply F'; [apply (OL l c Hl Q)|auto]|].
    assert (SM : ba = BCplx a -> bk = BCplx a -> Nat.eqb la lk = true) by (intros Q1 Q2; apply Nat.eqb_eq; rewrite <- (Fa Q1), <- (Fk Q2); reflexivity).
    assert (XX : ba = BCplx a /\ bk = BCplx a).
    { destruct D1 as [[-> [-> _]]|[r [-> [_ [-> Em]]]]].
      - split; [auto|]. destruct D2 as [[-> _]|[r [-> [_ [Q _]]]]]; [auto|]. apply holds_lt in Ha. lia.
      - exfalso. destruct D2 as [[-> [Q _]]|[r' [-> [_ [Q _]]]]].
        + apply holds_lt in Hk. lia.
        + rewrite Em, app_length in Q. simpl in Q. lia. }
    destruct XX as [X1 X2]. rewrite (SM X1 X2). rewrite <- (Fa X1). rewrite <- (Fk X2). cbn [andb negb].
    split; intros _; eexists; (split; [exact Ha'|]); destruct (convolvend _ _ _ _ _ _ _ _ _ _ _ _ _ _ _ _ _ _); auto; destruct nk; auto.
  - destruct (tail_distinct hf true lio b fill crop rf fs fp pp ia ie mw nk unp nt m2 la' lk' a k El P1 P2 EN) as [m' [ET [F' [Ha' Hk']]]]. rewrite ET. exists m'. split; [reflexivity|].
    split; [intros l c Hl Q; destruct (OL l c Hl Q); apply F'; auto|].
    split; intros Q.
    + rewrite <- (Fa Q). eexists. split; [exact Ha'|]. destruct (convolvend _ _ _ _ _ _ _ _ _ _ _ _ _ _ _ _ _ _); auto; destruct nk; auto.
    + assert (SM : Nat.eqb la lk = false).
      { apply Nat.eqb_neq. intros X. apply El. rewrite (Fk Q). assert (XB : ba = bk) by (unfold holds in *; congruence). assert (XA : ba = BCplx a) by (rewrite XB, Q in *; cbn in Ca; congruence). rewrite (Fa XA). exact X. }
      rewrite SM. cbn [andb negb]. rewrite <- (Fk Q). eexists. split; [exact Hk'|]. destruct (convolvend _ _ _ _ _ _ _ _ _ _ _ _ _ _ _ _ _ _); auto; destruct nk; auto.
Qed.
Print Assumptions C31_effects.

(** no harm: the call returns, the kernel is not normalised, and the NaN pixels (if any) are nan+0j *)
Corollary C31_returns_intact :
  forall m la lk a k hf lio b fill crop rf fs fp pp ia ie mw unp nt r m',
  holds m la (BCplx a) -> holds m lk (BCplx k) ->
  convolvend_mem hf true lio la lk b fill crop rf fs fp pp ia ie mw NkFalse unp nt m = (Ok r, m') ->
  (forall i, cisnan (get a i) = true -> get a i = (NaN, Fin 0)) -> (forall i, cisnan (get k i) = true -> get k i = (NaN, Fin 0)) ->
  exists a' k', holds m' la (BCplx a') /\ holds m' lk (BCplx k') /\ aeq a a' /\ aeq k k' /\
    forall l c, l <> la -> l <> lk -> holds m l c -> holds m' l c.
Proof.
  intros m la lk a k hf lio b fill crop rf fs fp pp ia ie mw unp nt r m' Ha Hk E Na Nk.
  destruct (C31_effects m la lk _ _ a k hf true lio b fill crop rf fs fp pp ia ie mw NkFalse unp nt Ha Hk eq_refl eq_refl) as [m2 [E2 [F [A K]]]].
  rewrite E in E2. injection E2 as Er <-. rewrite <- Er in A, K. destruct (A eq_refl) as [a' [Ha' [Sa Ga]]]. destruct (K eq_refl) as [k' [Hk' [Sk Gk]]].
  assert (Nd : Nat.eqb (ndim a) (ndim k) = true).
  { destruct (Nat.eqb (ndim a) (ndim k)) eqn:EN; [reflexivity|]. unfold convolvend in Er. cbn [negb] in Er. rewrite EN in Er. discriminate. }
  rewrite Nd in Ga, Gk. cbn in Ga, Gk. exists a', k'. split; [exact Ha'|]. split; [exact Hk'|]. split; [|split; [|auto]].
  - split; [auto|]. intros i Hi. rewrite Ga. destruct (cisnan (get a i)) eqn:EN; auto.
  - split; [auto|]. intros i Hi. rewrite Gk. destruct (cisnan (get k i)) eqn:EN; auto.
Qed.
Print Assumptions C31_returns_intact.
(** real-valued arguments are never touched, whatever happens *)
Corollary C31_real_arguments_intact :
  forall m la lk a k hf npc lio b fill crop rf fs fp pp ia ie mw nk unp nt,
  holds m la (BReal a) -> holds m lk (BReal k) ->
  unchanged m (snd (convolvend_mem hf npc lio la lk b fill crop rf fs fp pp ia ie mw nk unp nt m)).
Proof.
  intros m la lk a k hf npc lio b fill crop rf fs fp pp ia ie mw nk unp nt Ha Hk.
  destruct (C31_effects m la lk _ _ _ _ hf npc lio b fill crop rf fs fp pp ia ie mw nk unp nt Ha Hk eq_refl eq_refl) as [m2 [E2 [F _]]]. rewrite E2. cbn [snd].
  intros l c Hl. apply F; [exact Hl|]. destruct (Nat.eq_dec l la) as [->|]; [right; unfold holds in *; rewrite Ha in Hl; injection Hl as <-; eauto|].
  destruct (Nat.eq_dec l lk) as [->|]; [right; unfold holds in *; rewrite Hk in Hl; injection Hl as <-; eauto|]. auto.
Qed.
Print Assumptions C31_real_arguments_intact.
(** a NaN in a complex kernel is lost by every successful call that normalises it (a separate array is the image) *)
Corollary C31_normalized_kernel_loses_nan_refuted :
  forall m la lk ba a k hf lio b fill crop rf fs fp pp ia ie mw nk unp nt r m' i,
  holds m la ba -> as_complex ba = Some a -> holds m lk (BCplx k) -> la <> lk -> nk <> NkFalse -> cisnan (get k i) = true ->
  convolvend_mem hf true lio la lk b fill crop rf fs fp pp ia ie mw nk unp nt m = (Ok r, m') ->
  exists k', holds m' lk (BCplx k') /\ get k' i = (Fin 0, Fin 0).
Proof.
  intros m la lk ba a k hf lio b fill crop rf fs fp pp ia ie mw nk unp nt r m' i Ha Ca Hk Hd Hn Hi E.
  destruct (C31_effects m la lk _ _ a k hf true lio b fill crop rf fs fp pp ia ie mw nk unp nt Ha Hk Ca eq_refl) as [m2 [E2 [F [_ K]]]].
  rewrite E in E2. injection E2 as Er <-. rewrite <- Er in K. destruct (K eq_refl) as [k' [Hk' [_ Gk]]]. exists k'. split; [exact Hk'|]. rewrite Gk, Hi.
  assert (Nd : Nat.eqb (ndim a) (ndim k) = true).
  { destruct (Nat.eqb (ndim a) (ndim k)) eqn:EN; [reflexivity|]. unfold convolvend in Er. cbn [negb] in Er. rewrite EN in Er. discriminate. }
  apply Nat.eqb_neq in Hd. unfold conv_leaves. rewrite Nd, Hd. cbn [negb andb]. destruct nk; [congruence|reflexivity|reflexivity].
Qed.
Print Assumptions C31_normalized_kernel_loses_nan_refuted.
(** an exception after the dimension check leaves the NaN pixels of both complex arguments at 0 *)
Corollary C31_exception_loses_nan_refuted :
  forall m la lk a k hf lio b fill crop rf fs fp pp ia ie mw nk unp nt x m' i,
  holds m la (BCplx a) -> holds m lk (BCplx k) -> ndim a = ndim k ->
  convolvend_mem hf true lio la lk b fill crop rf fs fp pp ia ie mw nk unp nt m = (Raise x, m') ->
  exists a' k', holds m' la (BCplx a') /\ holds m' lk (BCplx k') /\
    (cisnan (get a i) = true -> get a' i = (Fin 0, Fin 0)) /\ (cisnan (get k i) = true -> get k' i = (Fin 0, Fin 0)).
Proof.
  intros m la lk a k hf lio b fill crop rf fs fp pp ia ie mw nk unp nt x m' i Ha Hk Nd E.
  destruct (C31_effects m la lk _ _ a k hf true lio b fill crop rf fs fp pp ia ie mw nk unp nt Ha Hk eq_refl eq_refl) as [m2 [E2 [F [A K]]]].
  rewrite E in E2. injection E2 as Er <-. rewrite <- Er in A, K. destruct (A eq_refl) as [a' [Ha' [Sa Ga]]]. destruct (K eq_refl) as [k' [Hk' [Sk Gk]]].
  rewrite Nd, Nat.eqb_refl in Ga, Gk. exists a', k'. split; [auto|]. split; [auto|]. split; intros H; [rewrite Ga, H|rewrite Gk, H]; reflexivity.
Qed.
Print Assumptions C31_exception_loses_nan_refuted.
(** boundary='extend' is such an exception; with a numpy that rejects lists of slices every call is *)
Definition cnan1 : arr cnum := Arr [3%Z] (fun i => match i with [0%Z] => (NaN, Fin 5) | _ => (Fin 1, Fin 0) end).
Example C31_nonvacuous : exists m',
  convolvend_mem false true true 0%nat 0%nat BExtend (Fin 0) true false true true false false false 0 NkFalse true 1 [BCplx cnan1] = (Raise NotImplementedError, m') /\
  ndim cnan1 = ndim cnan1 /\ cisnan (get cnan1 [0%Z]) = true.
Proof.
  destruct (C31_effects [BCplx cnan1] 0%nat 0%nat _ _ cnan1 cnan1 false true true BExtend (Fin 0) true false true true false false false 0 NkFalse true 1 eq_refl eq_refl eq_refl eq_refl) as [m' [E _]].
  exists m'. split; [|split; reflexivity]. rewrite E. apply injective_projections; reflexivity.
Qed.
(** a successful normalising call with a NaN in the kernel *)
Example C31_nonvacuous_return : exists r m',
  convolvend_mem false true true 1%nat 0%nat BWrap (Fin 0) true false true true false false false 0 NkTrue true 1 [BCplx cnan1; BCplx cnan1] = (Ok r, m').
Proof.
  destruct (C31_effects [BCplx cnan1; BCplx cnan1] 1%nat 0%nat _ _ cnan1 cnan1 false true true BWrap (Fin 0) true false true true false false false 0 NkTrue true 1 eq_refl eq_refl eq_refl eq_refl) as [m' [E _]].
  rewrite E. unfold convolvend. cbn [negb ndim cnan1 shape length Nat.eqb get_ffts].
  assert (K : Ceqb (sumNC (shape (nan_zeroed cnan1)) (get (nan_zeroed cnan1))) (RtoC 0) = false).
  { unfold Ceqb. destruct (Req_EM_T _ _) as [X|X]; [exfalso|reflexivity]. cbn in X. unfold cnan0 in X. cbn in X. change (Pos.to_nat 3) with 3%nat in X. cbn in X. lra. }
  rewrite K. cbn. eauto.
Qed.
