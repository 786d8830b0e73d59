(** C92, C95: an instance of DOP853 that takes a step, for the examples. *)
From Coq Require Import List ZArith QArith Bool Arith Lia Reals Lra Qreals.
From Verif Require Import Base Scalar Vec MBuffer MZeros MSteps MApi MDop853 MClasses Laws Spec SpecInst
  PStep PCore PHist PBound PVecR SpecRK PDim PFwd PTerm SpecMS PMS PMS2 PTop1 PMS6 PMS7 Ex SpecOrder SpecDense PDense SpecCtl PCtl PC5
  SpecConv SpecConv3 PConv1 PConv8 PExR PC3 PConv9 SpecVar PExVar PVar1 PVar3 PLmm7 POrd1 POrd2 POrd3 SpecInit PInit SpecLive SpecVL SpecSolve PCap3 PDcv3 PDlv4 PDcv4.
Import ListNotations.
Open Scope R_scope.

(** y' = max(0, 1000 t - 9/10)^2, y(0) = 0 *)
Definition pos (x : R) : R := (x + Rabs x) / 2.
Definition ramp (t : R) : R := pos (1000 * t - 9 / 10).
Definition rhs_ramp : @rhs_t Rops := fun t _ => Ret [ramp t * ramp t].
Definition sol_ramp (t : R) : list R := [ramp t * ramp t * ramp t / 3000].
Lemma pos_cases x : (x <= 0 /\ pos x = 0) \/ (0 <= x /\ pos x = x).
Proof. unfold pos, Rabs. destruct (Rcase_abs x); [left|right]; lra. Qed.
Lemma lim_ext f g x l : (forall z, f z = g z) -> derivable_pt_lim f x l -> derivable_pt_lim g x l.
Proof. intros H D eps He. destruct (D eps He) as (d & Hd). exists d. intros h H0 Hh. rewrite <- !H. now apply Hd. Qed.
Lemma d_pos2 x : derivable_pt_lim (fun z => pos z * pos z) x (2 * pos x).
Proof.
  intros eps He. exists (mkposreal eps He). intros h Hh Hd. cbn in Hd.
  assert (Q : Rabs (pos (x + h) * pos (x + h) - pos x * pos x - 2 * pos x * h) <= h * h).
  { destruct (pos_cases (x + h)) as [(P1 & ->)|(P1 & ->)], (pos_cases x) as [(P2 & ->)|(P2 & ->)]; apply Rabs_le; nra. }
  replace ((pos (x + h) * pos (x + h) - pos x * pos x) / h - 2 * pos x) with ((pos (x + h) * pos (x + h) - pos x * pos x - 2 * pos x * h) / h) by (field; exact Hh).
  unfold Rdiv. rewrite Rabs_mult, Rabs_inv. assert (Ph : 0 < Rabs h) by now apply Rabs_pos_lt.
  eapply Rle_lt_trans; [|exact Hd]. apply (Rmult_le_reg_r (Rabs h)); [exact Ph|]. rewrite Rmult_assoc, Rinv_l by lra. rewrite Rmult_1_r, <- Rabs_mult, (Rabs_pos_eq (h * h)) by nra. exact Q.
Qed.
Lemma d_pos3 x : derivable_pt_lim (fun z => pos z * pos z * pos z) x (3 * (pos x * pos x)).
Proof.
  apply (lim_ext (fun z => z * (pos z * pos z))).
  { intros z. destruct (pos_cases z) as [(_ & ->)|(_ & ->)]; ring. }
  pose proof (derivable_pt_lim_mult (fun z => z) (fun z => pos z * pos z) x _ _ (derivable_pt_lim_id x) (d_pos2 x)) as D.
  replace (3 * (pos x * pos x)) with (1 * (pos x * pos x) + x * (2 * pos x)); [exact D|]. destruct (pos_cases x) as [(_ & ->)|(_ & ->)]; ring.
Qed.
Lemma d_lin t : derivable_pt_lim (fun z => 1000 * z - 9 / 10) t 1000.
Proof. intros eps He. exists (mkposreal 1 Rlt_0_1). intros h Hh _. replace ((1000 * (t + h) - 9 / 10 - (1000 * t - 9 / 10)) / h - 1000) with 0 by (field; exact Hh). now rewrite Rabs_R0. Qed.
Lemma d_ramp2 t : derivable_pt_lim (fun z => ramp z * ramp z) t (2000 * ramp t).
Proof. replace (2000 * ramp t) with (2 * ramp t * 1000) by ring. exact (derivable_pt_lim_comp _ (fun z => pos z * pos z) t _ _ (d_lin t) (d_pos2 _)). Qed.
Lemma d_sol t : derivable_pt_lim (fun z => ramp z * ramp z * ramp z / 3000) t (ramp t * ramp t).
Proof.
  pose proof (derivable_pt_lim_comp _ (fun z => pos z * pos z * pos z) t _ _ (d_lin t) (d_pos3 _)) as D.
  apply (derivable_pt_lim_scal _ (/ 3000)) in D. fold (ramp t) in D. replace (ramp t * ramp t) with (/ 3000 * (3 * (ramp t * ramp t) * 1000)) by field.
  revert D. apply lim_ext. intros z. unfold mult_real_fct, comp. fold (ramp z). unfold Rdiv. ring.
Qed.
Lemma cont_ramp t : continuity_pt (fun z => 2000 * ramp z) t.
Proof. unfold ramp, pos. reg. Qed.
Lemma ramp_range t : 0 <= t <= 1 -> 0 <= ramp t <= 1000.
Proof. intros H. unfold ramp. destruct (pos_cases (1000 * t - 9 / 10)) as [(_ & ->)|(? & ->)]; lra. Qed.
Lemma ramp_sol : Ck_solution 2 rhs_ramp 1 0 1 sol_ramp.
Proof.
  exists (fun j t => match j with O => sol_ramp t | 1%nat => [ramp t * ramp t] | _ => [2000 * ramp t] end). split; [reflexivity|].
  intros t _. split; [reflexivity|]. split; [intros [|[|j]] _; reflexivity|]. intros i Hi. assert (i = 0)%nat as -> by lia. split.
  - intros [|[|j]] Hj; [exact (d_sol t)|exact (d_ramp2 t)|lia].
  - exact (cont_ramp t).
Qed.
Lemma ramp_keeps : keeps_dim (OT := Rops) 1 rhs_ramp.
Proof. intros t y f Hl H. injection H as <-. reflexivity. Qed.
Lemma ramp_lip : lipschitz 1 1 rhs_ramp.
Proof.
  split; [lra|]. split; [exact ramp_keeps|]. intros t u v e f g Hu Hv He Hf Hg. injection Hf as <-. injection Hg as <-.
  split; [reflexivity|]. intros i Hi. cbn in Hi. assert (i = 0)%nat as -> by lia. unfold Rminus. rewrite Rplus_opp_r, Rabs_R0.
  destruct He as (He1 & He2). assert (Hu' : (0 < length u)%nat) by (rewrite Hu; lia). specialize (He2 0%nat Hu'). pose proof (Rabs_pos (cmp 0 u - cmp 0 v)). lra.
Qed.
Lemma ramp_bound : forall t f i, 0 <= t <= 1 -> rhs_ramp t (sol_ramp t) = Ret f -> (i < 1)%nat -> Rabs (cmp i f) <= 1000000.
Proof.
  intros t f i Ht Hf Hi. injection Hf as <-. assert (i = 0)%nat as -> by lia. cbn [cmp nth]. pose proof (ramp_range t Ht).
  change (Rabs (ramp t * ramp t) <= 1000000). rewrite Rabs_pos_eq by nra. nra.
Qed.
Lemma ramp_zero : bounded_at_zero 1 1000000 0 (@Fin Rops 1) rhs_ramp.
Proof.
  intros t Ht Hg. cbn in Hg. apply Rltb_false in Hg. exists [ramp t * ramp t]. split; [reflexivity|]. intros i Hi. assert (i = 0)%nat as -> by lia.
  pose proof (ramp_range t (conj Ht Hg)). change (Rabs (ramp t * ramp t) <= 1000000). rewrite Rabs_pos_eq by nra. nra.
Qed.

(** uninitialised memory for a state of dimension one *)
Definition g8 : @garbage Rops := @mkgarb Rops (g_buf (garb (@DOP853 Rops))) (repeat [5%R] 13).
Lemma g8_ok : garbage_ok (@DOP853 Rops) g8 /\ garbage_dim (OT := Rops) 1 g8.
Proof. split; [exact (garb_ok (@DOP853 Rops))|repeat constructor]. Qed.
Lemma init_dims (A : list (list R)) B C E5 E3 order D Af Cf g rhs t0 y0 o sel first s : let m := @Dop Rops A B C E5 E3 order D Af Cf in
  garbage_ok m g -> init_var m g rhs t0 y0 o sel first = Ret s -> length (deriv s) = length y0 -> dims (length y0) s.
Proof.
  intros m Hg H Hd. destruct (init_var_fresh m g rhs t0 y0 o sel first s Hg eq_refl H) as (_ & _ & Hf & _).
  unfold init_var in H. destruct (init_base m g rhs t0 y0 None) as [s0| |] eqn:e; try discriminate. cbn [obind] in H.
  apply init_base_spec in e as (_ & f & Hr & Hc & _); auto.
  destruct (match max_step o with Fin x => _ | PInf => _ end); [discriminate|]. destruct (ltb _ _); [discriminate|].
  match type of H with (let! h := ?x in _) = _ => destruct x as [h| |] end; cbn [obind] in H; try discriminate.
  assert (cache s = cache s0) as Ec.
  { unfold m in H. match type of H with (match ?d with _ => _ end) = _ => destruct d as [r s'] eqn:ed end.
    destruct r; try discriminate. injection H as <-. unfold dop_update, bind, lift in ed.
    destruct (dop_extra _ _ _ _ _ _ _); inversion ed; reflexivity. }
  unfold dims. rewrite Ec, Hc. cbn [MBuffer.ys MBuffer.fs]. split; apply Forall_forall; intros x Hx; apply repeat_spec in Hx as ->; [reflexivity|].
  rewrite Hr in Hf. injection Hf as ->. exact Hd.
Qed.

(** ** one step with h = 1/1000: only the last stage is not zero *)
Lemma quad_stages (g : R -> R) t (y : list R) h rows : forall (cs : list R) (K : list (list R)), length rows = length cs ->
  stages_of (OT := Rops) (fun t _ => Ret [g t]) t y h rows cs K (K ++ map (fun c => [g (t + h * c)]) cs).
Proof.
  induction rows as [|a rows IH]; intros [|c cs] K Hl; try discriminate; [cbn [map]; rewrite app_nil_r; constructor|].
  cbn [map]. injection Hl as Hl. refine (@stg_cons Rops _ _ _ _ _ _ _ _ _ [g (t + h * c)] _ eq_refl _). specialize (IH cs (K ++ [[g (t + h * c)]]) Hl). rewrite <- app_assoc in IH. exact IH.
Qed.
Definition Kr : list (list R) := repeat [0] 11 ++ [[1 / 100]].
Lemma ramp_node c : 0 + 1 / 1000 * c <= 9 / 10000 -> ramp (0 + 1 / 1000 * c) * ramp (0 + 1 / 1000 * c) = 0.
Proof. intros H. unfold ramp. destruct (pos_cases (1000 * (0 + 1 / 1000 * c) - 9 / 10)) as [(_ & ->)|(? & ->)]; nra. Qed.
Lemma zero_stages cs : forallb (fun c => Qle_bool c (9 # 10)) cs = true ->
  map (fun c => [ramp (0 + 1 / 1000 * c) * ramp (0 + 1 / 1000 * c)]) (map qr cs) = repeat [0] (length cs).
Proof.
  induction cs as [|c cs IH]; intros H; [reflexivity|]. cbn [forallb] in H. apply andb_prop in H as (H1 & H2). cbn [map repeat length]. rewrite (IH H2). f_equal.
  rewrite ramp_node; [reflexivity|]. apply qr_leb in H1. replace (qr (9 # 10)) with (9 / 10) in H1 by (unfold qr; cbn; lra). lra.
Qed.
Lemma last_stage : ramp (0 + 1 / 1000 * 1) * ramp (0 + 1 / 1000 * 1) = 1 / 100.
Proof. unfold ramp. destruct (pos_cases (1000 * (0 + 1 / 1000 * 1) - 9 / 10)) as [(? & ->)|(? & ->)]; lra. Qed.
Lemma dC_split : skipn 1 dC = map qr (firstn 10 (skipn 1 C8)) ++ [qr (1 # 1)]. Proof. reflexivity. Qed.
Lemma ramp_stages : map (fun c => [ramp (0 + 1 / 1000 * c) * ramp (0 + 1 / 1000 * c)]) (skipn 1 dC) = repeat [0] 10 ++ [[1 / 100]].
Proof.
  rewrite dC_split, map_app, zero_stages by reflexivity. cbn [map]. replace (qr (1 # 1)) with 1 by (unfold qr; cbn; lra). now rewrite last_stage.
Qed.
Lemma dot_last v : forall n b b1, length b = n -> dot (b ++ [b1]) (map (fun k : list R => cmp 0 k) (repeat [0] n ++ [[v]])) = b1 * v.
Proof.
  induction n as [|n IH]; intros [|c b] b1 H; try discriminate.
  - cbn. change (cmp 0 [v]) with v. ring.
  - cbn [app repeat map dot]. rewrite IH by (now injection H). change (cmp 0 [0]) with 0. ring.
Qed.
Definition b12 : R := nth 11 dB 0.
Definition e12 : R := nth 11 (@lits Rops dop_E5) 0.
Lemma dB_split : dB = firstn 11 dB ++ [b12]. Proof. reflexivity. Qed.
Lemma b12_pos : 0 <= b12.
Proof. change b12 with (qr (nth 11 B8 0%Q)). replace 0 with (qr 0%Q) by (unfold qr; cbn; lra). apply qr_leb. reflexivity. Qed.
Lemma e12_range : - (3 / 100) < e12 < 0.
Proof.
  change e12 with (qr (nth 11 dop_E5 0%Q)). change qr with Q2R. replace 0 with (Q2R 0%Q) by apply RMicromega.Q2R_0.
  replace (- (3 / 100)) with (Q2R (-3 # 100)) by (unfold Q2R; cbn; lra). split; apply Qlt_Rlt; reflexivity.
Qed.
Definition y8 : R := 1 / 1000 * b12 * (1 / 100).
Lemma ramp_rk : rk_step (OT := Rops) rhs_ramp dA dB dC 0 [0] [0] (1 / 1000) Kr [y8].
Proof.
  split.
  - assert (H := quad_stages (fun t => ramp t * ramp t) 0 [0] (1 / 1000) (skipn 1 dA) (skipn 1 dC) [[0]] eq_refl). cbv beta in H.
    assert (Q : forall X Y : list (list R), X = Y -> [[0]] ++ X = [[0]] ++ Y) by (intros X Y ->; reflexivity). rewrite (Q _ _ ramp_stages) in H. exact H.
  - unfold rk_combine. change (@length (@T Rops) [0]) with 1%nat.
    assert (F : Forall (fun k => length k = 1%nat) Kr) by (apply Forall_forall; intros k Hk; apply in_app_iff in Hk as [Hk|[<-|[]]]; [apply repeat_spec in Hk as ->|]; reflexivity).
    symmetry. apply (vec_ext 1); [apply vadd_len; [reflexivity|now apply lincomb_len]|reflexivity|]. intros i Hi. assert (i = 0)%nat as -> by lia.
    rewrite (vadd_cmp 1), (lincomb_cmp 1) by (auto; now apply lincomb_len).
    assert (Q : dot (map (fun b => 1 / 1000 * b) dB) (map (fun k : list R => cmp 0 k) Kr) = 1 / 1000 * b12 * (1 / 100)).
    { rewrite dB_split, map_app. exact (dot_last (1 / 100) 11 (map (fun b => 1 / 1000 * b) (firstn 11 dB)) (1 / 1000 * b12) eq_refl). }
    refine (eq_trans (f_equal (Rplus (cmp 0 [0])) Q) _). change (0 + 1 / 1000 * b12 * (1 / 100) = y8). unfold y8. ring.
Qed.
Lemma E5_split : @lits Rops dop_E5 = firstn 11 (@lits Rops dop_E5) ++ [e12; qr 0%Q]. Proof. reflexivity. Qed.
Lemma weighted_5 : weighted (@lits Rops dop_E5) (1 / 1000) (Kr ++ [[1 / 100]]) 0 = 1 / 1000 * (e12 * (1 / 100)).
Proof.
  unfold weighted. f_equal. rewrite E5_split. unfold Kr. rewrite <- app_assoc. cbn [app].
  assert (G : forall n b (x1 x2 v : R), length b = n -> dot (b ++ [x1; x2]) (map (fun k : list R => cmp 0 k) (repeat [0] n ++ [[v]; [v]])) = x1 * v + x2 * v).
  { induction n as [|n IH]; intros [|c b] x1 x2 v H; try discriminate.
    - cbn. change (cmp 0 [v]) with v. ring.
    - cbn [app repeat map dot]. rewrite IH by (now injection H). change (cmp 0 [0]) with 0. ring. }
  refine (eq_trans (G 11%nat (firstn 11 (@lits Rops dop_E5)) e12 (qr 0%Q) (1 / 100) eq_refl) _). replace (qr 0%Q) with 0 by (unfold qr; cbn; lra). ring.
Qed.
Lemma rsum1 F : Rsum F (length [0]) / INR (length [0]) = F O.
Proof. unfold Rsum. cbn. field. Qed.
Lemma ramp_trial : exists e h', attempts rhs_ramp dA dB dC (dop_error opts_cap (@lits Rops dop_E5) (@dop_E3 Rops)) opts_cap 7 0 [0] [0] (1 / 1000) [(1 / 1000, e)] [y8] [1 / 100] h'.
Proof.
  set (e5 := scaled_rms opts_cap [0] [y8] (weighted (@lits Rops dop_E5) (1 / 1000) (Kr ++ [[1 / 100]]))).
  set (e3 := scaled_rms opts_cap [0] [y8] (weighted (@dop_E3 Rops) (1 / 1000) (Kr ++ [[1 / 100]]))).
  assert (H5 : 0 < e5 < 1).
  { unfold e5, scaled_rms. cbv zeta. rewrite rsum1. cbv beta. rewrite weighted_5.
    pose proof e12_range as W. set (M := Rmax _ _). assert (PM : 0 <= M) by (eapply Rle_trans; [apply Rabs_pos|apply Rmax_l]). clearbody M.
    assert (Ha : 1 / 10 ^ 6 <= atol opts_cap + rtol opts_cap * M).
    { assert (/ 10 ^ 6 <= atol opts_cap) by (cbn; lra). assert (0 <= rtol opts_cap) by (cbn; lra). nra. }
    set (D := atol opts_cap + rtol opts_cap * M) in *. clearbody D.
    set (w := 1 / 1000 * (e12 * (1 / 100))). assert (Hw : - (3 / 10 ^ 7) < w < 0) by (unfold w; lra). clearbody w.
    set (q := w / D). assert (Hq : - 1 < q < 0).
    { unfold q. split; [apply (Rmult_lt_reg_r D)|apply (Rmult_lt_reg_r D)]; try lra; unfold Rdiv; rewrite Rmult_assoc, Rinv_l, Rmult_1_r by lra; lra. }
    clearbody q. replace (q ^ 2) with (q * q) by ring.
    split; [apply sqrt_lt_R0; nra|]. refine (Rlt_le_trans _ _ _ _ (Req_le _ _ sqrt_1)). apply sqrt_lt_1_alt. nra. }
  exists (e5 / sqrt (1 + (e3 / (10 * e5)) ^ 2)). eexists.
  apply att_accept with (K := Kr); [exact ramp_rk| | |].
  - unfold rhs_ramp. f_equal. f_equal. rewrite <- last_stage. change (@add Rops 0 (1 / 1000)) with (0 + 1 / 1000). now rewrite Rmult_1_r.
  - split; [exact (Rgt_not_eq _ _ (proj1 H5))|reflexivity].
  - right. assert (Hs : 1 <= sqrt (1 + (e3 / (10 * e5)) ^ 2)).
    { rewrite <- sqrt_1 at 1. apply sqrt_le_1_alt. pose proof (pow2_ge_0 (e3 / (10 * e5))). lra. }
    apply (Rmult_lt_reg_r (sqrt (1 + (e3 / (10 * e5)) ^ 2))); [lra|]. unfold Rdiv. rewrite Rmult_assoc, Rinv_l by lra. lra.
Qed.
Lemma ramp_0 : ramp 0 = 0.
Proof. unfold ramp. destruct (pos_cases (1000 * 0 - 9 / 10)) as [(? & ->)|(? & ->)]; lra. Qed.
(** the instance with the default options but max_factor=1, and its first step *)
Lemma dop_ex te : exists s s' : @st Rops,
  garbage_ok (@DOP853 Rops) g8 /\ garbage_dim (OT := Rops) 1 g8 /\
  init_var (@DOP853 Rops) g8 rhs_ramp 0 (sol_ramp 0) opts_cap (fun _ _ _ => Ret one) (Some (1 / 1000)) = Ret s /\ hstep s = 1 / 1000 /\ now s = 0 /\
  steps_at_most (1 / 1000) te (solver_of (E := ER) DOP853 1 opts_cap rhs_ramp PInf) s /\
  took_step (solver_of (E := ER) DOP853 1 opts_cap rhs_ramp PInf) s s' /\ now s' = 1 / 1000 /\ state s' = [y8].
Proof.
  destruct cap_options as (O1 & O2 & O3 & O4 & O5).
  destruct (dop_init g8 rhs_ramp 0 (sol_ramp 0) opts_cap (fun _ _ _ => Ret one) (1 / 1000) 1 (proj1 g8_ok) (proj2 g8_ok) eq_refl ramp_keeps (ex_intro _ _ eq_refl) O1 O4) as (s & Hi & D1 & D2 & D3).
  assert (Hb : built (OT := Rops) (E := ER) rhs_ramp DOP853 s) by exact (built_var (OT := Rops) (E := ER) _ DOP853 g8 0%R (sol_ramp 0) opts_cap (fun _ _ _ => Ret one) (Some (1 / 1000)) s eq_refl (proj1 g8_ok) Hi).
  destruct (init_var_fresh _ g8 rhs_ramp 0 (sol_ramp 0) opts_cap _ _ s (proj1 g8_ok) eq_refl Hi) as (_ & _ & Df & _). injection Df as Df. symmetry in Df.
  assert (Z1 : sol_ramp 0 = [0]) by (unfold sol_ramp; rewrite ramp_0; f_equal; lra). rewrite ramp_0, Rmult_0_l in Df. rewrite Z1 in D2.
  assert (D5 : dims 1 s) by (apply (init_dims _ _ _ _ _ _ _ _ _ _ _ _ _ _ _ _ _ (proj1 g8_ok) Hi); rewrite Df; reflexivity).
  destruct ramp_trial as (e & h' & Ht).
  destruct (C36_converse (E := ER) (@DOP853 Rops) 1 opts_cap rhs_ramp PInf 1 _ _ _ _ _ s [(1 / 1000, e)] [y8] [1 / 100] h' (var_dop (E := ER) opts_cap _ _ _ _ _ _ _ _ _ eq_refl)) as (s' & H1 & H2 & H4 & _ & H3).
  - split; [reflexivity|discriminate].
  - lia.
  - exact ramp_keeps.
  - apply reach_built, Hb.
  - exact D5.
  - intros H. discriminate.
  - rewrite D1, D2, D3, Df. exact Ht.
  - cbn. lia.
  - exists s, s'. split; [exact (proj1 g8_ok)|]. split; [exact (proj2 g8_ok)|]. split; [exact Hi|]. split; [exact D1|]. split; [exact D3|]. split.
    + assert (Om : max_factor opts_cap <= 1) by (rewrite O3; lra). assert (Hh : 0 <= hstep s) by (rewrite D1; lra).
      rewrite <- D1. exact (PCap.cap_steps (E := ER) rhs_ramp (@DOP853 Rops) 1 opts_cap PInf eq_refl O5 Om s te (built_good rhs_ramp _ s Hb) Hh).
    + split; [exact H1|]. rewrite H2, D3. unfold last_h. cbn [last fst]. split; [lra|exact H4].
Qed.
