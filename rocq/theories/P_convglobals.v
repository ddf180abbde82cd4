(** Property C82: concurrent and earlier calls of convolvend do not influence each other *)
From Coq Require Import ZArith Lia List Reals Lra Bool FunctionalExtensionality.
From Coquelicot Require Import Complex.
From Verif Require Import Base NDim DFT Kernel Py M_fast_ffts M_shift M_convolve Spec L_shift M_convglobals.
Import ListNotations.
Open Scope R_scope.

Lemma fwd_same x a : fwd x a = np_fftn a.
Proof.
  destruct x as [|n]; [reflexivity|]. unfold fwd, fftwn, fftw_execute, np_fftn. f_equal. apply functional_extensionality. intros k.
  unfold dft. apply sumNC_ext. intros y Hy. rewrite phZ_sym. apply (f_equal (Cmult _)). f_equal. ring.
Qed.
Lemma inv_same x a : inv x a = np_ifftn a.
Proof.
  destruct x as [|n]; [reflexivity|]. unfold inv, ifftwn, fftw_execute, np_ifftn, amap; cbn [shape get]. f_equal. apply functional_extensionality. intros k.
  unfold idft. apply (f_equal (Cmult _)). apply sumNC_ext. intros y Hy. apply (f_equal (Cmult _)). f_equal. ring.
Qed.

(** result of a program when every transform is numpy's *)
Fixpoint value (p : prog) : res convres :=
  match p with
  | Done r => r
  | SetF _ k | SetI _ k => value k
  | UseF a k => value (k (np_fftn a))
  | UseI a k => value (k (np_ifftn a))
  end.

(** every use is preceded, in its own program, by a binding, or the global is bound anyway *)
Fixpoint safe (f i : bool) (p : prog) : Prop :=
  match p with
  | Done _ => True
  | SetF _ k => safe true i k
  | SetI _ k => safe f true k
  | UseF a k => f = true /\ forall r, safe f i (k r)
  | UseI a k => i = true /\ forall r, safe f i (k r)
  end.
Lemma safe_mono p : forall f i f' i', (f = true -> f' = true) -> (i = true -> i' = true) -> safe f i p -> safe f' i' p.
Proof.
  induction p as [r|x k IH|x k IH|a k IH|a k IH]; cbn [safe]; intros f i f' i' Hf Hi H; auto.
  - apply (IH true i); auto.
  - apply (IH f true); auto.
  - destruct H as [H1 H2]. split; auto. intros r. apply (IH r f i); auto.
  - destruct H as [H1 H2]. split; auto. intros r. apply (IH r f i); auto.
Qed.

Fixpoint size (n : nat) (p : prog) : Prop :=      (* at most n more accesses *)
  match n, p with
  | _, Done _ => True
  | S m, SetF _ k | S m, SetI _ k => size m k
  | S m, UseF _ k | S m, UseI _ k => forall r, size m (k r)
  | O, _ => False
  end.
Lemma size_mono n p : size n p -> forall m, (n <= m)%nat -> size m p.
Proof.
  revert p. induction n as [|n IH]; intros p H m Hm; destruct p, m; cbn [size] in *; auto; try contradiction; try lia;
  try (apply IH; [auto|lia]); intros r; apply IH; auto; lia.
Qed.

Definition bound {A} (o : option A) : bool := match o with Some _ => true | None => false end.

(** Section-free: what a thread list satisfies *)
Definition inv_ok (g : globals) (ts : list prog) (vs : list (res convres)) : Prop :=
  Forall2 (fun p v => safe (bound (g_fftn g)) (bound (g_ifftn g)) p /\ value p = v) ts vs.

Lemma step_ok g p : safe (bound (g_fftn g)) (bound (g_ifftn g)) p ->
  let '(g', p') := step g p in
  safe (bound (g_fftn g')) (bound (g_ifftn g')) p' /\ value p' = value p /\
  (bound (g_fftn g) = true -> bound (g_fftn g') = true) /\ (bound (g_ifftn g) = true -> bound (g_ifftn g') = true).
Proof.
  destruct p as [r|x k|x k|a k|a k]; cbn [step safe value]; intros H.
  - auto.
  - cbn [bound g_fftn g_ifftn]. auto.
  - cbn [bound g_fftn g_ifftn]. auto.
  - destruct H as [H1 H2]. destruct (g_fftn g) as [x|] eqn:E; [|discriminate]. rewrite fwd_same. auto.
  - destruct H as [H1 H2]. destruct (g_ifftn g) as [x|] eqn:E; [|discriminate]. rewrite inv_same. auto.
Qed.

Lemma upd_ok g g' ts vs t p' : inv_ok g ts vs ->
  (bound (g_fftn g) = true -> bound (g_fftn g') = true) -> (bound (g_ifftn g) = true -> bound (g_ifftn g') = true) ->
  safe (bound (g_fftn g')) (bound (g_ifftn g')) p' -> (forall v, nth_error vs t = Some v -> value p' = v) ->
  inv_ok g' (upd ts t p') vs.
Proof.
  intros H Hf Hi Hs. revert t. unfold inv_ok in *. induction H as [|p v ts vs [H1 H2] HF IH]; intros t Hv; simpl; [constructor|].
  destruct t as [|t]; constructor.
  - split; auto.
  - clear IH. induction HF as [|q w ts vs [Q1 Q2] HF IHF]; constructor; auto. split; auto. apply (safe_mono _ _ _ _ _ Hf Hi Q1).
  - split; auto. apply (safe_mono _ _ _ _ _ Hf Hi H1).
  - apply IH. exact Hv.
Qed.

Lemma run_ok sched : forall g ts vs, inv_ok g ts vs -> let '(g', ts') := run sched g ts in inv_ok g' ts' vs.
Proof.
  induction sched as [|t sched IH]; intros g ts vs H; cbn [run]; auto.
  destruct (nth_error ts t) as [p|] eqn:E; [|apply IH; exact H].
  assert (Hp : safe (bound (g_fftn g)) (bound (g_ifftn g)) p /\ forall v, nth_error vs t = Some v -> value p = v).
  { clear - H E. unfold inv_ok in H. revert t E. induction H as [|q v ts vs [Q1 Q2] HF IHF]; intros [|t] E; simpl in *; try discriminate.
    - injection E as <-. split; auto. intros w Ew. injection Ew as <-. exact Q2.
    - apply IHF. exact E. }
  destruct Hp as [Hs Hv]. assert (S := step_ok g p Hs). destruct (step g p) as [g' p']. destruct S as [S1 [S2 [S3 S4]]].
  apply IH. apply (upd_ok g); auto. intros v Ev. rewrite S2. apply Hv. exact Ev.
Qed.

(** the pure reading of a call is the sequential convolvend *)
Lemma value_convolvend hf npc lio array kernel b fill crop rf fs fp pp ia ie mw nk unp nt :
  value (convolvend_prog hf npc lio array kernel b fill crop rf fs fp pp ia ie mw nk unp nt) =
  convolvend hf npc lio array kernel b fill crop rf fs fp pp ia ie mw nk unp nt.
Proof.
  unfold convolvend_prog, convolvend. destruct npc; cbn [negb value]; [|reflexivity].
  destruct (negb (Nat.eqb (ndim array) (ndim kernel))); [reflexivity|].
  assert (Hr : forall k, value (rebind hf unp nt k) = value k) by (intros k; unfold rebind; destruct hf, unp; reflexivity).
  rewrite Hr.
  assert (HG : exists f i, get_ffts hf nt unp = (f, i) /\ (forall a, f a = np_fftn a) /\ (forall a, i a = np_ifftn a)).
  { unfold get_ffts. destruct (hf && negb unp).
    - exists (fftwn nt), (ifftwn nt). split; [reflexivity|]. split; intros a; [exact (fwd_same (XFftw nt) a)|exact (inv_same (XFftw nt) a)].
    - exists np_fftn, np_ifftn. destruct unp; auto. }
  destruct HG as [f [i [-> [Hf Hi]]]].
  destruct (match nk with NkFalse => _ | _ => _ end) as [kern normalized].
  destruct (match b with BNone => _ | _ => _ end) as [[[fpad ppad] fill']|x]; cbn [bind]; [|reflexivity].
  destruct (fpad && Nat.eqb (length (shape array)) 0); [reflexivity|].
  destruct lio; cbn [negb]; [|reflexivity].
  destruct (check_fft _) as [u|x]; cbn [bind]; [|reflexivity].
  destruct kern as [kern|]; [|reflexivity].
  destruct (isnan fill' && existsN _ _); [reflexivity|]. cbn [value].
  rewrite !Hf, !Hi. destruct ((ia || ie) && normalized); cbn [value]; destruct rf; reflexivity.
Qed.

Lemma safe_convolvend hf npc lio array kernel b fill crop rf fs fp pp ia ie mw nk unp nt :
  safe (bound (g_fftn (after_import hf))) (bound (g_ifftn (after_import hf)))
    (convolvend_prog hf npc lio array kernel b fill crop rf fs fp pp ia ie mw nk unp nt).
Proof.
  unfold convolvend_prog. destruct npc; cbn [negb]; [|exact I].
  destruct (negb (Nat.eqb (ndim array) (ndim kernel))); [exact I|].
  assert (Hr : forall k, safe true true k -> safe (bound (g_fftn (after_import hf))) (bound (g_ifftn (after_import hf))) (rebind hf unp nt k)).
  { intros k H. unfold rebind. destruct hf, unp; cbn; auto. }
  apply Hr.
  destruct (match nk with NkFalse => _ | _ => _ end) as [kern normalized].
  destruct (match b with BNone => _ | _ => _ end) as [[[fpad ppad] fill']|x]; [|exact I].
  destruct (fpad && Nat.eqb (length (shape array)) 0); [exact I|].
  destruct lio; cbn [negb]; [|exact I].
  destruct (check_fft _) as [u|x]; [|exact I].
  destruct kern as [kern|]; [|exact I].
  destruct (isnan fill' && existsN _ _); [exact I|].
  cbn [safe]. split; auto. intros r1. split; auto. intros r2.
  destruct ((ia || ie) && normalized); cbn [safe].
  - split; auto. intros r3. split; auto. intros r4. destruct rf; cbn [safe]; auto.
  - destruct rf; cbn [safe]; auto.
Qed.

Lemma size_convolvend hf npc lio array kernel b fill crop rf fs fp pp ia ie mw nk unp nt :
  size 7 (convolvend_prog hf npc lio array kernel b fill crop rf fs fp pp ia ie mw nk unp nt).
Proof.
  unfold convolvend_prog. destruct npc; cbn [negb]; [|exact I].
  destruct (negb (Nat.eqb (ndim array) (ndim kernel))); [exact I|].
  assert (Hr : forall k, size 5 k -> size 7 (rebind hf unp nt k)).
  { intros k H. unfold rebind. destruct (hf && negb unp); [exact H|]. destruct unp; [exact H|]. apply (size_mono 5); auto; lia. }
  apply Hr.
  destruct (match nk with NkFalse => _ | _ => _ end) as [kern normalized].
  destruct (match b with BNone => _ | _ => _ end) as [[[fpad ppad] fill']|x]; [|exact I].
  destruct (fpad && Nat.eqb (length (shape array)) 0); [exact I|].
  destruct lio; cbn [negb]; [|exact I].
  destruct (check_fft _) as [u|x]; [|exact I].
  destruct kern as [kern|]; [|exact I].
  destruct (isnan fill' && existsN _ _); [exact I|].
  cbn [size]. intros r1 r2.
  destruct ((ia || ie) && normalized); cbn [size].
  - intros r3 r4. destruct rf; cbn [size]; auto.
  - destruct rf; cbn [size]; auto.
Qed.

(** the arguments of one call *)
Record call := Call { c_npc : bool; c_lio : bool; c_array : arr cnum; c_kernel : arr cnum; c_b : boundary; c_fill : num;
  c_crop : bool; c_rf : bool; c_fs : bool; c_fp : bool; c_pp : bool; c_ia : bool; c_ie : bool; c_mw : R; c_nk : normk; c_unp : bool; c_nt : Z }.
Definition start (hf : bool) (c : call) : prog :=
  convolvend_prog hf (c_npc c) (c_lio c) (c_array c) (c_kernel c) (c_b c) (c_fill c) (c_crop c) (c_rf c) (c_fs c) (c_fp c) (c_pp c)
    (c_ia c) (c_ie c) (c_mw c) (c_nk c) (c_unp c) (c_nt c).
Definition alone (hf : bool) (c : call) : res convres :=
  convolvend hf (c_npc c) (c_lio c) (c_array c) (c_kernel c) (c_b c) (c_fill c) (c_crop c) (c_rf c) (c_fs c) (c_fp c) (c_pp c)
    (c_ia c) (c_ie c) (c_mw c) (c_nk c) (c_unp c) (c_nt c).

(** Under every interleaving of any number of concurrent calls (sequential histories included), with any mixture of use_numpy_fft
    and nthreads, a call that has finished returned or raised exactly what it does alone. *)
Theorem C82_any_schedule :
  forall hf (calls : list call) sched t r,
  nth_error (snd (run sched (after_import hf) (map (start hf) calls))) t = Some (Done r) ->
  exists c, nth_error calls t = Some c /\ r = alone hf c.
Proof.
  intros hf calls sched t r H.
  assert (I0 : inv_ok (after_import hf) (map (start hf) calls) (map (alone hf) calls)).
  { clear H. unfold inv_ok. induction calls as [|c calls IH]; simpl; constructor; auto. split; [apply safe_convolvend|apply value_convolvend]. }
  assert (R := run_ok sched _ _ _ I0). destruct (run sched (after_import hf) (map (start hf) calls)) as [g' ts']. cbn [snd] in H.
  unfold inv_ok in R. clear I0. rewrite <- (map_id ts') in R.
  assert (G : exists v, nth_error (map (alone hf) calls) t = Some v /\ v = r).
  { rewrite map_id in R. revert t H. induction R as [|p v ts vs [R1 R2] RF IH]; intros [|t] H; simpl in *; try discriminate.
    - injection H as ->. exists v. split; [reflexivity|]. symmetry. exact R2.
    - apply IH. exact H. }
  destruct G as [v [G1 ->]]. rewrite nth_error_map in G1. destruct (nth_error calls t) as [c|]; [|discriminate].
  exists c. split; auto. cbn in G1. congruence.
Qed.
Print Assumptions C82_any_schedule.

(** and every call finishes within seven of its own accesses, whatever the others do *)
Theorem C82_every_call_finishes :
  forall hf (calls : list call) sched t c,
  nth_error calls t = Some c -> (7 <= count_occ Nat.eq_dec sched t)%nat ->
  nth_error (snd (run sched (after_import hf) (map (start hf) calls))) t = Some (Done (alone hf c)).
Proof.
  intros hf calls sched t c Hc Hn.
  assert (G : forall n sched g ts p, nth_error ts t = Some p -> size n p -> (n <= count_occ Nat.eq_dec sched t)%nat ->
     exists r, nth_error (snd (run sched g ts)) t = Some (Done r)).
  { assert (upd_same : forall ts u p q, nth_error ts u = Some p -> nth_error (upd ts u q) u = Some q).
    { induction ts as [|w ts IH]; intros [|u] p q E; simpl in *; try discriminate; auto. apply (IH u p q E). }
    assert (upd_other : forall ts u w q, u <> w -> nth_error (upd ts u q) w = nth_error ts w).
    { induction ts as [|x ts IH]; intros [|u] [|w] q E; simpl in *; auto; try lia. }
    intros n s. revert n. induction s as [|u s IH]; intros n g ts p Ep Hs Hc'; cbn [run].
    - simpl in Hc'. assert (n = O) by lia. subst n. destruct p; cbn [size] in Hs; try contradiction. eexists. exact Ep.
    - simpl in Hc'. destruct (Nat.eq_dec u t) as [->|Nu].
      + rewrite Ep. destruct (step g p) as [g' p'] eqn:E.
        assert (Hs' : size (pred n) p').
        { assert (sd : forall m r, size m (Done r)) by (intros [|m] r; exact I).
          destruct p as [r|x k|x k|a k|a k]; cbn [step] in E; injection E as <- <-; destruct n as [|n]; cbn [size pred] in Hs |- *; auto; try contradiction; try apply sd.
          - destruct (g_fftn g); [apply Hs|apply sd].
          - destruct (g_ifftn g); [apply Hs|apply sd]. }
        apply (IH (pred n) g' _ p'); auto; [apply (upd_same _ _ p); auto|lia].
      + destruct (nth_error ts u) as [q|] eqn:Eq; [|apply (IH n g ts p); auto].
        destruct (step g q) as [g' q']. apply (IH n g' _ p); auto. rewrite upd_other by auto. exact Ep. }
  destruct (G 7%nat sched (after_import hf) (map (start hf) calls) (start hf c)) as [r Hr]; auto.
  - rewrite nth_error_map, Hc. reflexivity.
  - apply size_convolvend.
  - destruct (C82_any_schedule hf calls sched t r Hr) as [c' [E1 E2]]. rewrite Hc in E1. injection E1 as <-. rewrite Hr, E2. reflexivity.
Qed.
Print Assumptions C82_every_call_finishes.

(** two threads, fftw with different settings, each overwriting the other's transforms between its own accesses *)
Example C82_nonvacuous :
  let a := mk1 3 (fun x => (Fin (IZR x), Fin 0)) in
  let c := fun unp nt => Call true true a a BFill (Fin 0) true false true true false true false 0 NkTrue unp nt in
  (7 <= count_occ Nat.eq_dec (concat (repeat [0; 1]%nat 7)) 0)%nat /\
  exists k0 k1 : prog, run [0; 1; 1; 0]%nat (after_import true) (map (start true) [c false 4%Z; c true 1%Z]) =
    (Globals (Some XNumpy) (Some (XFftw 4)), [k0; k1]).
Proof. cbv zeta. split; [simpl; lia|]. eexists. eexists. reflexivity. Qed.
