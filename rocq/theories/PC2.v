(** One smooth curve for the dense output of a step (C40). *)
From Coq Require Import List ZArith Bool Arith Lia Reals Lra.
From Verif Require Import Base Scalar Vec MBuffer MZeros MSteps MApi MDop853 MClasses Laws Spec SpecInst SpecRK SpecDense SpecMS
  PStep PKeeps PClean PCore PHist PBound PVecR PRun PFwd PInterp PRK PDim PDense SpecZeros PZeros PZeros2 PMS PMS2 PRK2 PMS3 PC1.
Import ListNotations.
Open Scope R_scope.

Section Top2.
Context {E : @Env Rops}.
Lemma dims_prev m n (s : @st Rops) : wf m s -> dims n s ->
  length (prev_y s) = n /\ length (prev_f s) = n /\ length (deriv s) = n /\ length (state s) = n.
Proof.
  intros ((L1 & L2 & L3) & _) (D1 & D2). rewrite Forall_forall in D1, D2.
  destruct (len_history_pos m) as (k & Lk).
  assert (Lt : forall (l : list (@vec Rops)), l <> [] -> In (last l []) l).
  { intros l N. destruct (exists_last N) as (l' & x & ->). rewrite last_last. apply in_or_app. right. now left. }
  repeat split.
  - apply D1. unfold prev_y, buf_yp. apply nth_In. lia.
  - apply D2. unfold prev_f. apply nth_In. lia.
  - apply D2. apply Lt. intros e. rewrite e in L3. cbn in L3. lia.
  - apply D1. apply Lt. intros e. rewrite e in L2. cbn in L2. lia.
Qed.
Lemma last_step_det rhs A B C (s : @st Rops) h K h1 K1 : last_step rhs A B C s h K -> last_step rhs A B C s h1 K1 -> h = h1 /\ K = K1.
Proof.
  intros ((S1 & _) & N1) ((S2 & _) & N2). change (now s = prev_t s + h) in N1. change (now s = prev_t s + h1) in N2.
  assert (e : h = h1) by lra. split; [exact e|]. rewrite <- e in S2. eapply stages_det; eauto.
Qed.

Lemma C40_rk A B C Ew order P fuelc o rhs tb n fuel cs (s0 s : @st Rops) :
  P_ok P B (length A + 1) -> length B = length A -> length C = length A /\ A <> [] -> keeps_dim (OT := Rops) n rhs -> sane o ->
  let m := @Fsal Rops A B C Ew order P in let sv := solver_of (E := E) m fuelc o rhs tb in
  built (E := E) rhs m s0 -> length (state s0) = n -> 0 <= hstep s0 ->
  returns (E := E) sv fuel cs s0 s -> prev_t s < now s ->
  exists g, joins s g /\ forall t, prev_t s < t < now s -> exists s', interpolate sv t s = (Ret (@Own Rops (g t)), s').
Proof.
  intros HP HB Hsh Hk Ho m sv Hb Dn Hh Hr Hlt.
  destruct (rk_clean_dims A B C Ew order P fuelc o rhs tb n Hsh Hk Ho fuel cs s0 s Hb Dn Hh Hr) as (W & Dm).
  destruct (dims_prev _ _ _ W Dm) as (D1 & D2 & D3 & D4).
  assert (Mid : prev_t s < (prev_t s + now s) / 2 < now s) by lra.
  destruct (C24_rk_clean A B C Ew order P fuelc o rhs tb n Hsh Hk Ho fuel cs s0 s _ Hb Dn Hh Hr Mid) as (h & K & s1 & HL & _).
  exists (rk_dense P (prev_t s) (prev_y s) h (K ++ [deriv s])). split.
  - destruct Hsh as (HC & HA). eapply joins_rk; eauto.
  - intros t Ht. destruct (C24_rk_clean A B C Ew order P fuelc o rhs tb n Hsh Hk Ho fuel cs s0 s _ Hb Dn Hh Hr Ht) as (h' & K' & s' & HL' & Hi).
    destruct (last_step_det _ _ _ _ _ _ _ _ _ HL HL') as (<- & <-). exists s'. exact Hi.
Qed.

Lemma stages_first rhs rows cs K1 K2 t (y : @vec Rops) h : stages_of rhs t y h rows cs K1 K2 -> K1 <> [] -> nth 0 K2 [] = nth 0 K1 [].
Proof.
  induction 1 as [|a rows c cs K1 k K' Hk' _ IH]; intros N; [reflexivity|]. rewrite IH.
  - destruct K1; [congruence|reflexivity].
  - destruct K1; discriminate.
Qed.

Lemma C40_dop A B C E5 E3 order D Af Cf fuelc o rhs tb n fuel cs (s0 s : @st Rops) :
  Nat.even (length D) = true -> length C = length A /\ A <> [] -> keeps_dim (OT := Rops) n rhs -> sane o ->
  length A = dop_n_stages -> length Cf = length Af -> total rhs ->
  let m := @Dop Rops A B C E5 E3 order D Af Cf in let sv := solver_of (E := E) m fuelc o rhs tb in
  built (E := E) rhs m s0 -> length (state s0) = n -> 0 <= hstep s0 ->
  returns (E := E) sv fuel cs s0 s -> prev_t s < now s ->
  exists g, joins s g /\ forall t, prev_t s < t < now s -> exists s', interpolate sv t s = (Ret (@Own Rops (g t)), s').
Proof.
  intros HD Hsh Hk Ho HA HCf Ht m sv Hb Dn Hh Hr Hlt.
  destruct (dop_clean_dims A B C E5 E3 order D Af Cf fuelc o rhs tb n Hsh Hk Ho HA HCf fuel cs s0 s Hb Dn Hh Hr) as (W & Dm).
  destruct (dims_prev _ _ _ W Dm) as (D1 & D2 & D3 & D4).
  assert (Mid : prev_t s < (prev_t s + now s) / 2 < now s) by lra.
  destruct (C24_dop_clean A B C E5 E3 order D Af Cf fuelc o rhs tb n Hsh Hk Ho HA HCf fuel cs s0 s _ Hb Dn Hh Hr Mid) as (h & K & HL & Huq & Hex).
  destruct (Hex Ht) as (a & s1 & Hi). destruct (Huq a s1 Hi) as (K' & HK' & _). clear Huq Hex Hi.
  exists (dop_dense D (prev_t s) (prev_y s) (state s) (deriv s) h K'). split.
  - assert (Hn : now s = prev_t s + h) by exact (proj2 HL). assert (Hh' : h <> 0) by lra.
    destruct HL as ((Sg & _) & _).
    assert (K0 : nth 0 K' [] = prev_f s).
    { rewrite (stages_first _ _ _ _ _ _ _ _ HK') by (destruct K; discriminate).
      assert (KN : K <> []).
      { intros ->. pose proof (stages_first _ _ _ _ _ _ _ _ Sg) as Q. pose proof (stages_len _ _ _ _ _ _ _ _ Sg) as (Q1 & _). cbn in Q1. lia. }
      rewrite app_nth1 by (destruct K; [congruence|cbn; lia]). rewrite (stages_first _ _ _ _ _ _ _ _ Sg) by discriminate. reflexivity. }
    pose proof (fun i (Hi : (i < n)%nat) => dop_facts D (prev_t s) h (prev_y s) (state s) (deriv s) K' Hh' HD i (eq_ind_r (fun x => (i < x)%nat) Hi D1)) as F.
    rewrite <- Hn in F.
    split; [|split].
    + apply nth_ext with (d := 0) (d' := 0); [apply dop_len|]. intros i Hi. rewrite dop_len in Hi.
      assert (Hi' : (i < n)%nat) by (exact (eq_ind _ (fun x => (i < x)%nat) Hi _ D1)).
      exact (proj1 (F i Hi')).
    + apply nth_ext with (d := 0) (d' := 0). { rewrite dop_len. transitivity n; [exact D1|symmetry; exact D4]. } intros i Hi. rewrite dop_len in Hi.
      assert (Hi' : (i < n)%nat) by (exact (eq_ind _ (fun x => (i < x)%nat) Hi _ D1)).
      exact (proj1 (proj2 (F i Hi'))).
    + intros i Hi. assert (Hi' : (i < n)%nat) by (exact (eq_ind _ (fun x => (i < x)%nat) Hi _ D4)).
      destruct (F i Hi') as (_ & _ & F3 & F4 & F5). split; [|split; [exact F4|exact F5]].
      exact (eq_ind _ (fun v : list R => derivable_pt_lim _ _ (cmp i v)) F3 _ K0).
  - intros t Htt. destruct (C24_dop_clean A B C E5 E3 order D Af Cf fuelc o rhs tb n Hsh Hk Ho HA HCf fuel cs s0 s _ Hb Dn Hh Hr Htt) as (h' & K1 & HL' & Huq & Hex).
    destruct (last_step_det _ _ _ _ _ _ _ _ _ HL HL') as (<- & <-).
    destruct (Hex Ht) as (b & s' & Hi). destruct (Huq b s' Hi) as (K2 & HK2 & e). rewrite (stages_det _ _ _ _ _ _ _ _ HK' _ HK2).
    exists s'. rewrite <- e. exact Hi.
Qed.
End Top2.
