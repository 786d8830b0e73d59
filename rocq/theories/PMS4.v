(** More about the multistep classes: AM4 and AM5, C30, C34. *)
From Coq Require Import List ZArith QArith Bool Arith Lia Reals Lra.
From Verif Require Import Base Scalar Vec MBuffer MZeros MSteps MApi MClasses MDop853 Laws Spec SpecInst
  PStep PCore PHist PBound PVecR SpecRK PRK PDim PDense PFwd Ex PTerm PTop1 SpecZeros PZeros PZeros2 SpecMS PMS PMS2 PRK2 PRK3 PMS3.
Import ListNotations.
Open Scope R_scope.

(** ** AM4 and AM5 *)
Lemma am_defect m D : In (m, D) am_defects -> exists A B Bn, m = @ImplMS Rops A B Bn /\ length A = length B /\ quad_defect A B Bn D.
Proof.
  intros H. cbn [am_defects In] in H. destruct H as [H|[H|[]]]; injection H as <- <-; cbv [AM4 AM5 am]; rtidy;
    do 3 eexists; (split; [reflexivity|]); (split; [reflexivity|]); cbn [Qnum Qden].
  all: defect.
Qed.

Section Top.
Context {E : @Env Rops}.
Lemma quad_affine rhs p : quadrature rhs [p] -> affine1 rhs (fun _ => 0) (peval (pder p)).
Proof. intros H t y. rewrite (H t [y]). cbn. f_equal. f_equal. ring. Qed.
Lemma C28_defect_lemma m D rhs p fuelc o tb (s s' : @st Rops) : In (m, D) am_defects ->
  reachable (E := E) rhs m fuelc o tb s -> dims 1 s -> degree_le 2 p -> quadrature rhs [p] -> tracks (length (A_of m)) [p] s ->
  took_step (solver_of (E := E) m fuelc o rhs tb) s s' ->
  now s' = now s + hstep s /\ state s' = [peval p (now s') - D * nth 2 p 0 * (hstep s * hstep s)].
Proof.
  intros H G Dm HP Hq Tr St. apply reach_good in G as (W & _).
  destruct (am_defect _ _ H) as (A & B & Bn & -> & LAB & Q). cbn [A_of] in Tr.
  pose proof (wf_state_dim _ _ _ W Dm) as Hn.
  destruct (implicit_affine A B Bn fuelc o rhs tb s s' _ _ W LAB Dm (quad_affine _ _ Hq)) as (Ht & Hl & Pu & Hd & Hu); auto.
  { lra. }
  split; [exact Ht|].
  assert (Rel : lm_relation A B Bn s (state s') (slope [p] (now s + hstep s))).
  { rewrite (len1 (state s') 0 Hl). pose proof (proj2 (Hu (nth 0 (state s') 0)) (len1 (state s') 0 Hl)) as R0.
    rewrite <- Ht. unfold slope. cbn [map]. intros i Hi. specialize (R0 i Hi). rewrite Rmult_0_l, Rplus_0_l in R0. exact R0. }
  assert (Hi : (0 < length (state s))%nat) by exact (eq_ind_r (fun x => (0 < x)%nat) (le_n 1) Hn).
  pose proof (defect_step A B Bn D [p] s (state s') 0 LAB Q (Forall_cons _ HP (Forall_nil _)) Tr Hi Rel) as K.
  rewrite (len1 (state s') 0 Hl), Ht. f_equal. exact K.
Qed.

(** ** C34 *)
Lemma C34_lemma A B Bn fuelc o rhs tb n fuel (s : @st Rops) :
  length A = length B -> reachable (E := E) rhs (@ImplMS Rops A B Bn) fuelc o tb s -> dims n s -> n <> 1%nat ->
  keeps_dim n rhs -> solve_dim (E := E) ->
  match step (solver_of (E := E) (@ImplMS Rops A B Bn) fuelc o rhs tb) fuel None None s with
  | (Ret (ROne _ _), s') => now s' = now s + hstep s /\ length (state s') = n /\ rhs (now s') (state s') = Ret (deriv s') /\
      norm2 (lm_residual A B Bn s (state s') (deriv s')) <= 148 / 10000000000
  | (Ret (RMany _), _) => False
  | (Ret RNone, s') => s' = s /\ would_pass tb s
  | (Raise e, s') => s' = s /\ (e = RuntimeError \/ (exists t y, rhs t y = Raise e) \/ (exists J b, @np_solve Rops E J b = Raise e))
  | (Loop, s') => s' = s /\ ((exists t y, rhs t y = Loop) \/ (exists J b, @np_solve Rops E J b = Loop))
  end.
Proof.
  intros LAB G D Hn1 Kd Sd. apply reach_good in G as (W & _). pose proof (wf_state_dim _ _ _ W D) as Hn.
  set (sv := solver_of (E := E) (@ImplMS Rops A B Bn) fuelc o rhs tb).
  assert (OK : forall s', took_step sv s s' -> now s' = now s + hstep s /\ length (state s') = n /\ rhs (now s') (state s') = Ret (deriv s') /\
      norm2 (lm_residual A B Bn s (state s') (deriv s')) <= 148 / 10000000000).
  { intros s' St. destruct (implicit_hd A B Bn fuelc o rhs tb s s' n W LAB D Hn1 Kd Sd St) as (Ht & Hl & _ & Er & Nv).
    rewrite Ht. auto. }
  destruct (step sv fuel None None s) as [r s'] eqn:es.
  assert (Co : (r = Ret RNone /\ s' = s /\ would_pass tb s) \/ (exists t a, r = Ret (ROne t a)) \/
    (match r with Ret _ => False | Raise e => s_core sv s = (Raise e, s') | Loop => s_core sv s = (Loop, s') end)).
  { unfold step, bind in es. destruct (step_cases sv (s_bound sv) s) as [(Hw & e)|(_ & e)]; rewrite e in es.
    - left. cbn in es. injection es as <- <-. auto.
    - right. destruct (s_core sv s) as [[[]| |] s1]; cbn in es; injection es as <- <-; eauto. }
  destruct Co as [(-> & -> & Hw)|[(t & a & ->)|Co]].
  - auto.
  - apply OK. unfold took_step. eauto.
  - assert (Cr : s' = s /\ (match r with Ret _ => False
        | Raise e => e = RuntimeError \/ (exists t y, rhs t y = Raise e) \/ (exists J b, @np_solve Rops E J b = Raise e)
        | Loop => (exists t y, rhs t y = Loop) \/ (exists J b, @np_solve Rops E J b = Loop) end)).
    { assert (Hs : s' = s /\ match r with Ret _ => False
        | Raise e => impl_ms_fixed_step A B Bn rhs (cache s) (hstep s) = Raise e \/ (exists t y, rhs t y = Raise e)
        | Loop => impl_ms_fixed_step A B Bn rhs (cache s) (hstep s) = Loop \/ (exists t y, rhs t y = Loop) end).
      { destruct r as [|e|]; [contradiction| |]; cbn [s_core sv solver_of core_of] in Co; unfold core_impl_ms, bind, lift in Co;
        (destruct (impl_ms_fixed_step A B Bn rhs (cache s) (hstep s)) as [[t y]| |];
          [destruct (rhs t y) as [f| |] eqn:er; cbn in Co; try discriminate|..]; try discriminate).
        - injection Co as <- <-. eauto.
        - injection Co as <- <-. eauto.
        - injection Co as <-. eauto.
        - injection Co as <-. eauto. }
      destruct Hs as (-> & Hr). split; [reflexivity|].
      unfold impl_ms_fixed_step in Hr. unfold ysize in Hr. change (buf_y (cache s)) with (state s) in Hr. rewrite Hn in Hr.
      destruct (Nat.eqb_spec n 1) as [e|_]; [congruence|].
      match type of Hr with context [newton_hd ?F _ _ _ _] => set (func := F) in *; pose proof (newton_hd_R func (@default_tol Rops) (@zero Rops) (state s) 50) as NR end.
      assert (IRe : forall x e, func x = Raise e -> exists t y, rhs t y = Raise e).
      { intros x e. unfold func, implicit_root. destruct (rhs _ x) as [f| |] eqn:er; cbn; intros h; try discriminate. injection h as <-. eauto. }
      assert (IRl : forall x, func x = Loop -> exists t y, rhs t y = Loop).
      { intros x. unfold func, implicit_root. destruct (rhs _ x) as [f| |] eqn:er; cbn; intros h; try discriminate. eauto. }
      destruct (newton_hd func (state s) (@default_tol Rops) (@zero Rops) 50) as [y|e|]; cbn [obind] in Hr.
      - destruct r; [contradiction| |]; (destruct Hr as [Hr|Hr]; [discriminate|auto]).
      - destruct r; [contradiction| |]; (destruct Hr as [Hr|Hr]; [try discriminate|auto]).
        injection Hr as <-. destruct NR as [(-> & _)|[(x & NR)|NR]]; eauto.
      - destruct r; [contradiction| |]; (destruct Hr as [Hr|Hr]; [try discriminate|auto]).
        destruct NR as [(x & NR)|NR]; eauto. }
    destruct Cr as (-> & Cr). destruct r; [contradiction| |]; auto.
Qed.
End Top.
