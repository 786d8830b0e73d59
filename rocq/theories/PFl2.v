(** A Runge-Kutta step in floating point beside the exact step. *)
From Coq Require Import List ZArith QArith Bool Arith Lia Reals Lra SpecFloat.
From Verif Require Import Base Scalar Vec MBuffer MZeros MSteps MApi MClasses Spec SpecInst PBound PVecR SpecRK PDim SpecConv PConv1 SpecFl PFl1.
Import ListNotations.
Open Scope R_scope.

(** x is a finite float within C eps of v *)
Definition ap (prec emax : Z) (eps C : R) (x : spec_float) (v : R) : Prop := fin prec emax x /\ Rabs (val x - v) <= C * eps.
Definition vap prec emax eps C := Forall2 (ap prec emax eps C).

Section Ap.
Variables (prec emax : Z) (X F eps : R) (pw : spec_float -> spec_float -> spec_float).
Hypothesis HX : 0 <= X.
Hypothesis HF : 0 <= F.
Hypothesis Hr : roomy prec emax X F eps.
Notation fin := (fin prec emax).
Notation ap := (ap prec emax eps).
Notation vap := (vap prec emax eps).
Notation FT := (SFops_at prec emax pw).
Let Hp : (1 < prec)%Z := proj1 (proj1 Hr).
Let He : (prec < emax)%Z := proj2 (proj1 Hr).
Lemma eps_pos : 0 < eps.
Proof. pose proof Hr as (_ & _ & H). pose proof (uro_pos prec Hp). lra. Qed.
Lemma ap_mono C D x v : C <= D -> ap C x v -> ap D x v.
Proof. intros H (F1 & F2). split; auto. pose proof eps_pos. assert (C * eps <= D * eps) by (apply Rmult_le_compat_r; lra). lra. Qed.
Lemma ap_self x : fin x -> ap 0 x (val x).
Proof. intros H. split; auto. replace (val x - val x) with 0 by ring. rewrite Rabs_R0. lra. Qed.
Lemma ap_size C M x v : ap C x v -> C * eps <= 1 -> Rabs v <= M -> Rabs (val x) <= M + 1.
Proof. intros (_ & H) H1 H2. replace (val x) with ((val x - v) + v) by ring. eapply Rle_trans; [apply Rabs_triang|]. lra. Qed.
Lemma ap_add C D M N x y v w : ap C x v -> ap D y w -> Rabs v <= M -> Rabs w <= N -> C * eps <= 1 -> D * eps <= 1 -> M + N <= X + 8 * F + 6 ->
  ap (C + D + M + N + 3) (@add FT x y) (v + w).
Proof.
  intros Hx Hy Hv Hw HC HD Hb. pose proof (ap_size _ _ _ _ Hx HC Hv) as Sx. pose proof (ap_size _ _ _ _ Hy HD Hw) as Sy.
  destruct Hx as (Fx & Ex), Hy as (Fy & Ey). pose proof eps_pos as Pe. pose proof Hr as (_ & Hbig & Hu). pose proof (uro_pos prec Hp) as Pu.
  assert (S : Rabs (val x + val y) <= M + N + 2) by (eapply Rle_trans; [apply Rabs_triang|]; lra).
  destruct (fl_add prec emax Hp He x y Fx Fy) as (Fz & Ez); [unfold big; lra|]. split; [exact Fz|].
  change (@add FT x y) with (SFadd prec emax x y).
  replace (val (SFadd prec emax x y) - (v + w)) with ((val (SFadd prec emax x y) - (val x + val y)) + ((val x - v) + (val y - w))) by ring.
  eapply Rle_trans; [apply Rabs_triang|]. pose proof (Rabs_triang (val x - v) (val y - w)).
  assert (uro prec * (1 + Rabs (val x + val y)) <= eps * (M + N + 3)).
  { apply Rmult_le_compat; try lra. pose proof (Rabs_pos (val x + val y)). lra. }
  lra.
Qed.
Lemma ap_mul C D M N x y v w : 0 <= M -> 0 <= N -> ap C x v -> ap D y w -> Rabs v <= M -> Rabs w <= N -> C * eps <= 1 -> D * eps <= 1 ->
  (M + 1) * (N + 1) <= X + 8 * F + 8 -> ap (C * (N + 1) + M * D + 1 + (M + 1) * (N + 1)) (@mul FT x y) (v * w).
Proof.
  intros HM HN Hx Hy Hv Hw HC HD Hb. pose proof (ap_size _ _ _ _ Hx HC Hv) as Sx. pose proof (ap_size _ _ _ _ Hy HD Hw) as Sy.
  destruct Hx as (Fx & Ex), Hy as (Fy & Ey). pose proof eps_pos as Pe. pose proof Hr as (_ & Hbig & Hu). pose proof (uro_pos prec Hp) as Pu.
  assert (S : Rabs (val x * val y) <= (M + 1) * (N + 1)) by (rewrite Rabs_mult; apply Rmult_le_compat; auto using Rabs_pos).
  destruct (fl_mul prec emax Hp He x y Fx Fy) as (Fz & Ez); [unfold big; lra|]. split; [exact Fz|].
  change (@mul FT x y) with (SFmul prec emax x y).
  replace (val (SFmul prec emax x y) - v * w) with ((val (SFmul prec emax x y) - val x * val y) + ((val x - v) * val y + v * (val y - w))) by ring.
  eapply Rle_trans; [apply Rabs_triang|]. pose proof (Rabs_triang ((val x - v) * val y) (v * (val y - w))) as Q. rewrite !Rabs_mult in Q.
  assert (Q1 : Rabs (val x - v) * Rabs (val y) <= C * eps * (N + 1)) by (apply Rmult_le_compat; auto using Rabs_pos).
  assert (Q2 : Rabs v * Rabs (val y - w) <= M * (D * eps)) by (apply Rmult_le_compat; auto using Rabs_pos).
  assert (uro prec * (1 + Rabs (val x * val y)) <= eps * (1 + (M + 1) * (N + 1))).
  { apply Rmult_le_compat; try lra. pose proof (Rabs_pos (val x * val y)). lra. }
  lra.
Qed.
Lemma ap_lit q W : Rabs (@lit Rops q) <= W -> W <= X + 8 * F + 8 -> ap (1 + W) (@lit FT q) (@lit Rops q).
Proof.
  intros H1 H2. pose proof Hr as (_ & Hbig & Hu). destruct (fl_lit prec emax Hp He q) as (F1 & F2); [unfold big; lra|]. split; [exact F1|].
  eapply Rle_trans; [exact F2|]. pose proof (uro_pos prec Hp). pose proof (Rabs_pos (@lit Rops q)). rewrite Rmult_comm. apply Rmult_le_compat; lra.
Qed.
(** vectors *)
Lemma vap_mono C D x v : C <= D -> vap C x v -> vap D x v.
Proof. intros H. induction 1; constructor; eauto using ap_mono. Qed.
Lemma vap_self x : Forall fin x -> vap 0 x (map val x).
Proof. induction 1; constructor; auto using ap_self. Qed.
Lemma vap_fin C x v : vap C x v -> Forall fin x.
Proof. induction 1; constructor; auto. apply H. Qed.
Lemma vap_len C x v : vap C x v -> length x = length v.
Proof. induction 1; cbn; auto. Qed.
Lemma vap_near C x v : vap C x v -> near (C * eps) (map val x) v.
Proof.
  intros H. split; [rewrite map_length; apply (vap_len _ _ _ H)|]. induction H as [|a b x v Hab H IH]; intros i Hi; [cbn in Hi; lia|].
  destruct i as [|i]; [apply Hab|]. apply IH. cbn in Hi. lia.
Qed.
Lemma near_vap C x v : Forall fin x -> near (C * eps) (map val x) v -> vap C x v.
Proof.
  intros Fx (H1 & H2). revert v H1 H2. induction Fx as [|a x Fa Fx IH]; intros [|b v] H1 H2; cbn in H1; try discriminate; constructor.
  - split; auto. specialize (H2 0%nat ltac:(cbn; lia)). exact H2.
  - apply IH; [injection H1; auto|]. intros i Hi. apply (H2 (S i)). cbn. lia.
Qed.
Lemma vap_size C M x v : vap C x v -> C * eps <= 1 -> within M v -> within (M + 1) (map val x).
Proof. unfold within. intros H H1. induction H; intros H2; constructor; inversion H2; subst; eauto using ap_size. Qed.
Lemma vap_add C D M N x y v w : vap C x v -> vap D y w -> within M v -> within N w -> C * eps <= 1 -> D * eps <= 1 -> M + N <= X + 8 * F + 6 ->
  vap (C + D + M + N + 3) (@vadd FT x y) (@vadd Rops v w).
Proof.
  intros H. revert y w. induction H as [|a b x v Hab H IH]; intros y w Hy Hv Hw HC HD Hb; [constructor|].
  destruct Hy as [|c d y w Hcd Hy]; [constructor|]. inversion Hv; inversion Hw; subst. constructor; [now apply ap_add|]. now apply IH.
Qed.
Lemma vap_scale C D M N x v ys ws : 0 <= M -> 0 <= N -> ap C x v -> vap D ys ws -> Rabs v <= M -> within N ws -> C * eps <= 1 -> D * eps <= 1 ->
  (M + 1) * (N + 1) <= X + 8 * F + 8 -> vap (C * (N + 1) + M * D + 1 + (M + 1) * (N + 1)) (@vscale FT x ys) (@vscale Rops v ws).
Proof.
  intros HM HN Hx H. induction H as [|a b y w Hab H IH]; intros Hv Hw HC HD Hb; [constructor|].
  inversion Hw; subst. constructor; [now apply ap_mul|]. now apply IH.
Qed.
Lemma within_mono M N v : M <= N -> within M v -> within N v.
Proof. intros H. apply Forall_impl. intros. lra. Qed.
Lemma within_add M N v w : within M v -> within N w -> within (M + N) (@vadd Rops v w).
Proof.
  intros H. revert w. induction H as [|a v Ha H IH]; intros w Hw; [constructor|]. destruct Hw as [|b w Hb Hw]; constructor; [|now apply IH].
  eapply Rle_trans; [apply Rabs_triang|]. lra.
Qed.
Lemma within_scale M N x w : 0 <= M -> Rabs x <= M -> within N w -> within (M * N) (@vscale Rops x w).
Proof. intros HM Hx. induction 1; constructor; auto. cbn. rewrite Rabs_mult. apply Rmult_le_compat; auto using Rabs_pos. Qed.
End Ap.

(** linear combinations *)
Lemma lincomb_ap X F j : 0 <= X -> 0 <= F -> forall Ca Ck, 0 <= Ca -> 0 <= Ck -> exists C', Ca <= C' /\ Ck <= C' /\ 7 <= C' /\
  forall prec emax eps pw, roomy prec emax X F eps -> C' * eps <= 1 ->
  forall acc accR cs vs K KR i, (i + j <= 4)%nat -> (length cs <= j)%nat ->
  Forall2 (ap prec emax eps 7) cs vs -> within 1 vs -> Forall2 (vap prec emax eps Ck) K KR -> Forall (within F) KR ->
  vap prec emax eps Ca acc accR -> within (INR i * F) accR ->
  vap prec emax eps C' (@lincomb_acc (SFops_at prec emax pw) acc cs K) (@lincomb_acc Rops accR vs KR) /\
  within (INR (i + j) * F) (@lincomb_acc Rops accR vs KR).
Proof.
  intros HX HF. induction j as [|j IH]; intros Ca Ck HCa HCk.
  - exists (Ca + Ck + 7). split; [lra|]. split; [lra|]. split; [lra|].
    intros prec emax eps pw Hr Hs acc accR cs vs K KR i Hij Hl Hc Hv HK HKR Hacc Hw.
    destruct Hc; [|cbn in *; lia]. cbn. rewrite Nat.add_0_r. split; auto. eapply (vap_mono prec emax X F eps Hr); [|exact Hacc]. lra.
  - set (P := 7 * (F + 1) + 1 * Ck + 1 + (1 + 1) * (F + 1)).
    destruct (IH (Ca + P + 4 * F + 1 * F + 3) Ck) as (C' & H1 & H2 & H3 & H4); [unfold P; lra|auto|].
    assert (HP : 0 <= P) by (unfold P; lra).
    exists C'. split; [lra|]. split; [lra|]. split; [lra|].
    intros prec emax eps pw Hr Hs acc accR cs vs K KR i Hij Hl Hc Hv HK HKR Hacc Hw.
    pose proof (eps_pos prec emax X F eps Hr) as Pe.
    assert (Sm : forall D, 0 <= D <= C' -> D * eps <= 1) by (intros D HD; eapply Rle_trans; [|exact Hs]; apply Rmult_le_compat_r; lra).
    assert (Wi : INR i * F <= INR (i + S j) * F) by (apply Rmult_le_compat_r; [lra|apply le_INR; lia]).
    assert (W4 : INR i * F <= 3 * F) by (apply Rmult_le_compat_r; [lra|]; replace 3 with (INR 3) by (cbn; lra); apply le_INR; lia).
    destruct Hc as [|c v cs vs Hcv Hc].
    { cbn. split; [eapply (vap_mono prec emax X F eps Hr); [|exact Hacc]; lra|eapply within_mono; eauto]. }
    destruct HK as [|k kR K KR Hk HK].
    { cbn. split; [eapply (vap_mono prec emax X F eps Hr); [|exact Hacc]; lra|eapply within_mono; eauto]. }
    inversion Hv as [|? ? Hv1 Hv2]; subst. inversion HKR as [|? ? Hk1 Hk2]; subst.
    assert (Q : vap prec emax eps P (@vscale (SFops_at prec emax pw) c k) (@vscale Rops v kR)).
    { unfold P. apply (vap_scale prec emax X F eps pw Hr); auto; try lra; apply Sm; lra. }
    assert (Wk : within (1 * F) (@vscale Rops v kR)) by (apply within_scale; auto; lra).
    pose proof (vap_add prec emax X F eps pw Hr Ca P (INR i * F) (1 * F) _ _ _ _ Hacc Q Hw Wk ltac:(apply Sm; lra) ltac:(apply Sm; lra) ltac:(lra)) as R.
    cbn [lincomb_acc]. replace (i + S j)%nat with (S i + j)%nat by lia. apply (H4 prec emax eps pw); auto.
    + lia.
    + cbn in Hl. lia.
    + eapply (vap_mono prec emax X F eps Hr); [|exact R]. lra.
    + rewrite S_INR. replace ((INR i + 1) * F) with (INR i * F + 1 * F) by ring. now apply within_add.
Qed.

(** one more stage *)
Section Stages.
Variables (X F L : R) (n : nat) (rhs : @rhs_t Rops).
Hypothesis HX : 0 <= X.
Hypothesis HF : 0 <= F.
Hypothesis HL0 : 0 <= L.
Hypothesis HT : tame rhs n L X F.

Lemma lits_ap prec emax eps pw q : roomy prec emax X F eps -> Forall (fun x => Rabs (@lit Rops x) <= 1) q ->
  Forall2 (ap prec emax eps 7) (@lits (SFops_at prec emax pw) q) (@lits Rops q) /\ within 1 (@lits Rops q).
Proof.
  intros Hr. induction 1 as [|a q Ha H (IH1 & IH2)]; [split; constructor|]. split; constructor; auto.
  eapply (ap_mono prec emax X F eps Hr); [|apply (ap_lit prec emax X F eps pw Hr); [exact Ha|lra]]. lra.
Qed.
Lemma vzero_ap prec emax eps pw k : vap prec emax eps 0 (@vzero (SFops_at prec emax pw) k) (@vzero Rops k) /\ within (INR 0 * F) (@vzero Rops k).
Proof.
  unfold vzero. induction k as [|k (IH1 & IH2)]; [split; constructor|]. cbn [repeat]. split; constructor; auto.
  - split; [split; reflexivity|]. rewrite zero_R. cbn. rewrite Rminus_0_r, Rabs_R0. lra.
  - rewrite zero_R, Rabs_R0. cbn. lra.
Qed.
Lemma stage_next Ck : 0 <= Ck -> exists C', Ck <= C' /\
  forall prec emax eps pw rhsF, roomy prec emax X F eps -> computed prec emax pw rhsF rhs n X eps -> C' * eps <= / 3 ->
  forall t y h, fin prec emax t -> Forall (fin prec emax) y -> fin prec emax h -> length y = n ->
  Rabs (val t) <= X + / 3 -> within (X + / 3) (map val y) -> 0 < val h <= / 3 -> 4 * F * val h <= / 3 ->
  forall a c K KR k, Forall (fun x => Rabs (@lit Rops x) <= 1) a -> Rabs (@lit Rops c) <= 1 -> (length K <= 4)%nat ->
  Forall2 (vap prec emax eps Ck) K KR -> Forall (within F) KR -> Forall (fun v => length v = n) KR ->
  rhsF (@add (SFops_at prec emax pw) t (@mul (SFops_at prec emax pw) h (@lit (SFops_at prec emax pw) c)))
    (@vadd (SFops_at prec emax pw) y (@vscale (SFops_at prec emax pw) h (@lincomb (SFops_at prec emax pw) (length y) (firstn (length K) (@lits (SFops_at prec emax pw) a)) K))) = Ret k ->
  exists kR, rhs (val t + val h * @lit Rops c)
      (@vadd Rops (map val y) (@vscale Rops (val h) (@lincomb Rops (length (map val y)) (firstn (length KR) (@lits Rops a)) KR))) = Ret kR /\
    vap prec emax eps C' k kR /\ within F kR /\ length kR = n.
Proof.
  intros HCk. destruct (lincomb_ap X F 4 HX HF 0 Ck ltac:(lra) HCk) as (Cs & S1 & S2 & S3 & S4).
  set (Cm := 0 * (4 * F + 1) + 1 * Cs + 1 + (1 + 1) * (4 * F + 1)).
  set (Cz := 0 + Cm + (X + 1) + 4 * F + 3).
  set (Ct := 0 + (0 * (1 + 1) + 1 * 7 + 1 + (1 + 1) * (1 + 1)) + (X + 1) + 1 + 3).
  exists (Ck + 1 + L * Cz + L * Ct + Cz + Ct).
  assert (HCz : 0 <= Cz /\ Cs <= Cz /\ Cm <= Cz) by (unfold Cz, Cm; lra). assert (HCt : 0 <= Ct /\ 12 <= Ct) by (unfold Ct; lra).
  assert (0 <= L * Cz) by (apply Rmult_le_pos; lra). assert (0 <= L * Ct) by (apply Rmult_le_pos; lra). split; [lra|].
  intros prec emax eps pw rhsF Hr Hcomp Hs t y h Ft Fy Fh Ly Bt By Hh HFh a c K KR k Ha Hc LK HK HKR LKR Hk.
  set (FT := SFops_at prec emax pw) in *. pose proof (eps_pos prec emax X F eps Hr) as Pe.
  assert (Sm : forall D, 0 <= D <= Ck + 1 + L * Cz + L * Ct + Cz + Ct -> D * eps <= / 3) by (intros D HD; eapply Rle_trans; [|exact Hs]; apply Rmult_le_compat_r; lra).
  assert (Sm1 : forall D, 0 <= D <= Ck + 1 + L * Cz + L * Ct + Cz + Ct -> D * eps <= 1) by (intros D HD; specialize (Sm D HD); lra).
  assert (EK : length K = length KR) by (clear - HK; induction HK; cbn; auto).
  destruct (lits_ap prec emax eps pw (firstn (length K) a) Hr) as (La1 & La2). { rewrite <- (firstn_skipn (length K) a) in Ha. apply Forall_app in Ha. apply Ha. }
  assert (E1 : firstn (length K) (@lits FT a) = @lits FT (firstn (length K) a)) by (unfold lits; apply firstn_map).
  assert (E2 : firstn (length KR) (@lits Rops a) = @lits Rops (firstn (length K) a)) by (unfold lits; rewrite <- EK; apply firstn_map).
  rewrite E1 in Hk. rewrite E2. rewrite map_length, Ly. rewrite Ly in Hk.
  destruct (vzero_ap prec emax eps pw n) as (Z1 & Z2).
  destruct (S4 prec emax eps pw Hr ltac:(apply Sm1; lra) _ _ (@lits FT (firstn (length K) a)) _ K KR 0%nat ltac:(lia) ltac:(unfold lits; rewrite map_length, firstn_length; lia) La1 La2 HK HKR Z1 Z2) as (Q1 & Q2).
  fold FT in Q1. change (INR (0 + 4)) with (INR 4) in Q2. replace (INR 4) with 4 in Q2 by (cbn; lra).
  change (@lincomb_acc FT (@vzero FT n)) with (@lincomb FT n) in Q1. change (@lincomb_acc Rops (@vzero Rops n)) with (@lincomb Rops n) in Q1, Q2.
  set (sF := @lincomb FT n (@lits FT (firstn (length K) a)) K) in *. set (sR := @lincomb Rops n (@lits Rops (firstn (length K) a)) KR) in *.
  assert (Aa : Rabs (val h) <= 1) by (rewrite Rabs_right; lra).
  assert (Ah : Rabs (val h) <= val h) by (rewrite Rabs_right; lra).
  assert (M1 : vap prec emax eps Cm (@vscale FT h sF) (@vscale Rops (val h) sR)).
  { unfold Cm. apply (vap_scale prec emax X F eps pw Hr); auto; try lra; try (apply Sm1; lra). now apply ap_self. }
  assert (W1 : within (val h * (4 * F)) (@vscale Rops (val h) sR)) by (apply within_scale; auto; lra).
  assert (W2 : within (X + / 3 + val h * (4 * F)) (@vadd Rops (map val y) (@vscale Rops (val h) sR))) by now apply within_add.
  assert (M2 : vap prec emax eps Cz (@vadd FT y (@vscale FT h sF)) (@vadd Rops (map val y) (@vscale Rops (val h) sR))).
  { unfold Cz. apply (vap_add prec emax X F eps pw Hr); try lra; [now apply vap_self|exact M1|eapply within_mono; [|exact By]; lra| |apply Sm1; unfold Cm in *; lra].
    eapply within_mono; [|exact W1]. assert (val h * (4 * F) <= 1 * (4 * F)) by (apply Rmult_le_compat_r; lra). lra. }
  assert (M3 : ap prec emax eps Ct (@add FT t (@mul FT h (@lit FT c))) (val t + val h * @lit Rops c)).
  { unfold Ct. apply (ap_add prec emax X F eps pw Hr); try lra.
    - now apply ap_self.
    - apply (ap_mul prec emax X F eps pw Hr); try lra; [now apply ap_self| |apply Sm1; lra].
      eapply (ap_mono prec emax X F eps Hr); [|apply (ap_lit prec emax X F eps pw Hr); [exact Hc|lra]]. lra.
    - rewrite Rabs_mult. rewrite <- (Rmult_1_r 1) at 1. apply Rmult_le_compat; auto using Rabs_pos.
    - apply Sm1. lra. }
  set (z := @vadd FT y (@vscale FT h sF)) in *. set (zR := @vadd Rops (map val y) (@vscale Rops (val h) sR)) in *.
  set (tau := @add FT t (@mul FT h (@lit FT c))) in *. set (tauR := val t + val h * @lit Rops c) in *.
  assert (BtR : Rabs tauR <= X + 2 / 3).
  { unfold tauR. eapply Rle_trans; [apply Rabs_triang|]. assert (Rabs (val h * @lit Rops c) <= val h * 1) by (rewrite Rabs_mult; apply Rmult_le_compat; auto using Rabs_pos). lra. }
  assert (Btau : Rabs (val tau) <= X + 1).
  { replace (val tau) with ((val tau - tauR) + tauR) by ring. eapply Rle_trans; [apply Rabs_triang|]. destruct M3 as (_ & M3). specialize (Sm Ct ltac:(lra)). lra. }
  assert (LzR : length zR = n).
  { unfold zR. apply (vadd_l n); [now rewrite map_length|]. apply (vscale_l n). now apply lincomb_l. }
  assert (Lz : length z = n) by exact (eq_trans (vap_len _ _ _ _ _ _ M2) LzR).
  assert (WzR : within (X + 1) zR) by (eapply within_mono; [|exact W2]; lra).
  assert (Wz : within (X + 1) (map val z)).
  { pose proof (Sm Cz ltac:(lra)) as SmC. clear - M2 W2 SmC HFh. clearbody z zR. unfold within in *. induction M2 as [|p q z zR Hpq M2 IH]; cbn; constructor; inversion W2; subst; auto.
    destruct Hpq as (_ & Hpq). replace (val p) with ((val p - q) + q) by ring. eapply Rle_trans; [apply Rabs_triang|]. lra. }
  destruct HT as (HLip & Htime & _ & Hdef).
  destruct (Hcomp tau z) as (k' & f & R1 & R2 & R3 & R4); auto. { apply M3. } { eapply vap_fin; eauto. }
  rewrite Hk in R1. injection R1 as <-.
  destruct (Hdef tauR zR) as (kR & T1 & T2); auto; [lra|]. destruct (Hdef (val tau) zR) as (g & T3 & T4); auto.
  exists kR. split; [exact T1|]. pose proof HLip as (_ & Hkd & Hl). split; [|split; [exact T2|eapply Hkd; eauto]].
  apply near_vap; auto.
  pose proof (Hl (val tau) (map val z) zR f g (Cz * eps) ltac:(now rewrite map_length) LzR (vap_near _ _ _ _ _ _ M2) R3 T3) as N1.
  pose proof (Htime (val tau) tauR zR g kR LzR T3 T1) as N2.
  pose proof (near_trans _ _ _ _ _ (near_trans _ _ _ _ _ R4 N1) N2) as N3. eapply near_mono; [|exact N3].
  destruct M3 as (_ & M3). assert (L * Rabs (val tau - tauR) <= L * (Ct * eps)) by (apply Rmult_le_compat_l; lra).
  assert (0 <= Ck * eps) by (apply Rmult_le_pos; lra). assert (0 <= Cz * eps) by (apply Rmult_le_pos; lra). assert (0 <= Ct * eps) by (apply Rmult_le_pos; lra). lra.
Qed.
End Stages.
