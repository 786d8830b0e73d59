(** C84 for DOP853. *)
From Coq Require Import List ZArith QArith Bool Arith Lia Reals Lra Psatz.
From Verif Require Import Base Scalar Vec MBuffer MZeros MSteps MApi MDop853 MClasses Laws Spec SpecInst SpecInit PVecR SpecRK SpecMS SpecOrder SpecVar SpecConv SpecConv3
  SpecLive SpecCtl SpecVL SpecSolve SpecEv SpecEvC PBound PTop1 Ex PConv8 PConv9 PExR PC3 PExVar PCap3 PSolve6 POrd2 PDcv4 PDcv5 PDcv6.
Import ListNotations.
Open Scope R_scope.

(** * C84  DOP853: the states behind the events are off by at most K H and the floor of C92 *)
Theorem C84_dop853 {E : @Env Rops} : forall rhs n L t0 te y S, lipschitz n L rhs -> t0 <= te -> C2_solution rhs n t0 te y -> 0 <= S ->
  (forall t f i, t0 <= t <= te -> rhs t (y t) = Ret f -> (i < n)%nat -> Rabs (cmp i f) <= S) ->
  exists K, 0 <= K /\ forall H g o sel first s0 fuelc tb fuel cs s, 0 < H <= 1 -> 200 * (H * L) <= 1 -> sane o -> garbage_ok (@DOP853 Rops) g ->
    init_var (@DOP853 Rops) g rhs t0 (y t0) o sel first = Ret s0 -> 0 <= hstep s0 -> steps_at_most H te (solver_of (E := E) DOP853 fuelc o rhs tb) s0 ->
    returns (E := E) (solver_of (E := E) DOP853 fuelc o rhs tb) fuel cs s0 s ->
    let eps := K * H + S * (te - t0) * exp (26 * L * (te - t0)) / 10 ^ 29 in
    event_times (E := E) n te y (solver_of (E := E) DOP853 fuelc o rhs tb) s eps H /\
    event_stops (E := E) n te y (solver_of (E := E) DOP853 fuelc o rhs tb) s eps H.
Proof. exact C84_dop_lemma. Qed.
Print Assumptions C84_dop853.
(** the problem and the solver of C92_ex; the event y = y(1/2) has a simple zero at 1/2 *)
Definition ev_half : eventR := mkuev (OT := Rops) (fun _ a => Ret (nth 0 a 0 - nth 0 (sol_ramp (1 / 2)) 0)) None None.
Definition G_half (_ : R) (a : list R) : R := nth 0 a 0 - nth 0 (sol_ramp (1 / 2)) 0.
Example C84_dop853_ex : lipschitz 1 1 rhs_ramp /\ C2_solution rhs_ramp 1 0 1 sol_ramp /\
  (forall t f i, 0 <= t <= 1 -> rhs_ramp t (sol_ramp t) = Ret f -> (i < 1)%nat -> Rabs (cmp i f) <= 1000000) /\
  200 * (1 / 1000 * 1) <= 1 /\ sane opts_cap /\ garbage_ok (@DOP853 Rops) g8 /\
  (exists s s' : @st Rops, init_var (@DOP853 Rops) g8 rhs_ramp 0 (sol_ramp 0) opts_cap (fun _ _ _ => Ret one) (Some (1 / 1000)) = Ret s /\ hstep s = 1 / 1000 /\
    steps_at_most (1 / 1000) 1 (solver_of (E := ER) DOP853 1 opts_cap rhs_ramp PInf) s /\ took_step (solver_of (E := ER) DOP853 1 opts_cap rhs_ramp PInf) s s') /\
  event_fun 1 1 ev_half G_half /\ simple_zero 1 1 (1 / 10) (fun t => G_half t (sol_ramp t)) (1 / 2) /\ 2 * (1 / 1000) <= 1 / 10.
Proof.
  destruct cap_options as (_ & _ & _ & _ & O5).
  split; [exact ramp_lip|]. split; [apply (Ck_C2 2); [lia|exact ramp_sol]|]. split; [exact ramp_bound|]. split; [lra|]. split; [exact O5|].
  split; [exact (proj1 g8_ok)|]. split.
  { destruct (dop_ex 1) as (s & s' & _ & _ & H1 & H2 & _ & H3 & H4 & _). exists s, s'. tauto. }
  split; [|split; [|lra]].
  - split; [lra|]. split; [reflexivity|]. intros t a b e La Lb (Hl & H). specialize (H 0%nat (eq_ind_r (fun q => (0 < q)%nat) Nat.lt_0_1 La)). unfold G_half.
    replace (nth 0 a 0 - nth 0 (sol_ramp (1 / 2)) 0 - (nth 0 b 0 - nth 0 (sol_ramp (1 / 2)) 0)) with (nth 0 a 0 - nth 0 b 0) by ring. rewrite Rmult_1_l. exact H.
  - split; [now left|]. split; [lra|]. intros x Hx. unfold G_half, sol_ramp. cbn [nth].
    assert (Rp : forall t, 1 / 1000 <= t -> ramp t = 1000 * t - 9 / 10).
    { intros t Ht. unfold ramp. destruct (pos_cases (1000 * t - 9 / 10)) as [(? & ->)|(? & ->)]; lra. }
    rewrite !Rp by lra. split; nra.
Qed.
