(** The step size controller (C36), options without effect (C37), DOP853 with
    vanishing error estimates (C38) and the end of an integration (C39). *)
From Coq Require Import List ZArith QArith Bool Arith Lia Reals Lra FunctionalExtensionality.
From Coq Require Import SpecFloat.
From Verif Require Import Base Scalar Vec MBuffer MZeros MSteps MApi MDop853 MClasses Laws Spec SpecInst SpecRK SpecDense SpecMS SpecCtl
  PStep PKeeps PClean PCore PHist PBound PVecR PRun PFwd PInterp PRK PDim PTop1 PTop2 PMS PCtl PC1 PC2.
Import ListNotations.
Open Scope R_scope.

Section C36.
Context {E : @Env Rops}.
Lemma var_core o m A B C order err fuelc rhs : variable_step (E := E) o m A B C order err ->
  exists norm, core_of (E := E) m fuelc o rhs = @core_fsal Rops E fuelc A B C norm o (error_exponent order) rhs /\ computes norm o err /\
    (shaped m -> length C = length A /\ A <> []) /\ n_stages_of m = S (length A).
Proof.
  intros H. destruct H.
  - eexists. split; [reflexivity|]. split; [apply computes_fsal|]. split; [auto|cbn; lia].
  - eexists. split; [reflexivity|]. split; [apply computes_dop; assumption|]. split; [auto|cbn; lia].
Qed.

Lemma C36_lemma m fuelc (o : @options Rops) rhs tb n A B C order err (s s' : @st Rops) :
  variable_step (E := E) o m A B C order err -> shaped m -> (0 <= order)%Z -> keeps_dim (OT := Rops) n rhs ->
  reachable (E := E) rhs m fuelc o tb s -> dims n s -> took_step (solver_of (E := E) m fuelc o rhs tb) s s' ->
  exists l, attempts rhs A B C err o order (now s) (state s) (deriv s) (hstep s) l (state s') (deriv s') (hstep s') /\
    (length l <= fuelc)%nat /\ now s' = now s + last_h l.
Proof.
  intros Hv Hs Ho Hk Hr Hd Ht. pose proof (reachable_wf _ _ _ _ _ _ Hr) as W.
  destruct (dims_prev _ _ _ W Hd) as (_ & _ & Df & Dy).
  destruct (var_core o m A B C order err fuelc rhs Hv) as (norm & Hc & Hn & Hsh & Hst). destruct (Hsh Hs) as (HC & HA).
  apply took_core in Ht. change (core_of (E := E) m fuelc o rhs s = (Ret tt, s')) in Ht. rewrite Hc in Ht.
  destruct W as (Wl & W). rewrite Hst in W. destruct (len_history_pos m) as (k & Hlk). rewrite Hlk in Wl.
  destruct (core_attempts A B C norm o order rhs err n Hn Ho HC HA Hk fuelc s s' W Dy Df Ht) as (l & y' & f' & H1 & H2 & H3).
  exists l. unfold state at 2, deriv at 2, now at 2. rewrite H3. rewrite (push_t (S k)), (push_y (S k)), (push_f (S k)) by exact Wl. auto.
Qed.
Lemma C36_converse m fuelc (o : @options Rops) rhs tb n A B C order err (s : @st Rops) l y' f' h' :
  variable_step (E := E) o m A B C order err -> shaped m -> (0 <= order)%Z -> keeps_dim (OT := Rops) n rhs ->
  reachable (E := E) rhs m fuelc o tb s -> dims n s -> ~ would_pass tb s ->
  attempts rhs A B C err o order (now s) (state s) (deriv s) (hstep s) l y' f' h' -> (length l <= fuelc)%nat ->
  exists s', took_step (solver_of (E := E) m fuelc o rhs tb) s s' /\ now s' = now s + last_h l /\ state s' = y' /\ deriv s' = f' /\ hstep s' = h'.
Proof.
  intros Hv Hs Ho Hk Hr Hd Hp Hat Hl. pose proof (reachable_wf _ _ _ _ _ _ Hr) as W.
  destruct (dims_prev _ _ _ W Hd) as (_ & _ & Df & Dy).
  destruct (var_core o m A B C order err fuelc rhs Hv) as (norm & Hc & Hn & Hsh & Hst). destruct (Hsh Hs) as (HC & HA).
  destruct W as (Wl & W). rewrite Hst in W. destruct (len_history_pos m) as (k & Hlk). rewrite Hlk in Wl.
  destruct (attempts_core A B C norm o order rhs err n Hn Ho HC HA Hk l s y' f' h' fuelc W Dy Df Hat Hl) as (s' & H1 & H2 & H3).
  exists s'. split.
  - unfold took_step. exists O. unfold step, bind. destruct (step_cases (solver_of (E := E) m fuelc o rhs tb) tb s) as [(K & _)|(_ & K)]; [contradiction|].
    change (s_bound (solver_of (E := E) m fuelc o rhs tb)) with tb. rewrite K.
    change (s_core (solver_of (E := E) m fuelc o rhs tb) s) with (core_of (E := E) m fuelc o rhs s). rewrite Hc, H1. cbn. eexists _, _. reflexivity.
  - unfold state, deriv, now. rewrite H3. rewrite (push_t (S k)), (push_y (S k)), (push_f (S k)) by exact Wl. auto.
Qed.
(** the step sizes of consecutive trials *)
Lemma attempts_trials rhs A B C err (o : @options Rops) order t y f h l y' f' h' :
  attempts rhs A B C err o order t y f h l y' f' h' ->
  (forall i h1 e1, nth_error l i = Some (h1, e1) -> (accepted e1 <-> i = (length l - 1)%nat) /\
     nth_error (map fst l ++ [h']) (S i) = Some (h1 * factor o order e1)) /\
  nth_error (map fst l) 0 = Some h.
Proof.
  induction 1 as [h K y' f' e H1 H2 H3 H4|h K y1 f1 e l y' f' h' H1 H2 H3 H4 H5 (IH & IH0)].
  - split; [|reflexivity]. intros [|[|i]] h1 e1 Hi; cbn in Hi; try discriminate. injection Hi as <- <-. cbn. tauto.
  - assert (Hne : l <> []) by (intros ->; cbn in IH0; discriminate).
    split; [|reflexivity]. intros [|i] h1 e1 Hi; cbn [nth_error] in Hi.
    + injection Hi as <- <-. split.
      * split; [contradiction|]. destruct l; [congruence|]. cbn. lia.
      * cbn [map app nth_error fst]. destruct l as [|p l]; [congruence|]. cbn in *. exact IH0.
    + destruct (IH i h1 e1 Hi) as (I1 & I2). split.
      * rewrite I1. cbn [length]. destruct l; [congruence|]. cbn [length]. lia.
      * cbn [map app]. exact I2.
Qed.
Lemma C36_trials_lemma rhs A B C err (o : @options Rops) order t y f h l y' f' h' : (0 <= order)%Z ->
  min_factor o <= max_factor o -> attempts rhs A B C err o order t y f h l y' f' h' ->
  forall i h1 e1, nth_error l i = Some (h1, e1) ->
    (accepted e1 <-> i = (length l - 1)%nat) /\
    exists q, nth_error (map fst l ++ [h']) (S i) = Some (h1 * q) /\ min_factor o <= q <= max_factor o /\
      (~ accepted e1 -> min_factor o <= 1 -> safety_factor o <= 1 -> q <= 1).
Proof.
  intros Ho Hm H i h1 e1 Hi. destruct (attempts_trials _ _ _ _ _ _ _ _ _ _ _ _ _ _ _ H) as (K & _).
  destruct (K i h1 e1 Hi) as (K1 & K2). split; [exact K1|]. exists (factor o order e1). split; [exact K2|]. split; [now apply factor_bounds|].
  intros; apply factor_reject; auto.
Qed.
End C36.

(** ** C37 *)
Section C37.
Context {OT : Ops} {E : Env}.
Lemma core_steps_ignored m fuelc o o' rhs : same_but_steps o o' -> core_of m fuelc o rhs = core_of m fuelc o' rhs.
Proof.
  intros (H1 & H2 & H3 & H4 & H5).
  assert (Hu : forall e x, step_update e o x = step_update e o' x).
  { intros e x. unfold step_update. now rewrite H3, H4, H5. }
  assert (Hn : forall y yp er, scaled_error_norm y yp er o = scaled_error_norm y yp er o').
  { intros. unfold scaled_error_norm. now rewrite H1, H2. }
  assert (K : forall A B C norm expo, (forall y s, norm o y s = norm o' y s) -> forall f, core_fsal f A B C norm o expo rhs = core_fsal f A B C norm o' expo rhs).
  { intros A B C norm expo Hnm f. induction f as [|f IH]; [reflexivity|]. cbn [core_fsal]. rewrite IH.
    extensionality s. unfold bind, get, lift. destruct (fsal_fixed_step A B C rhs s) as [[[t y]| |] s1]; auto. rewrite Hnm. destruct (norm o' y s1); auto. now rewrite Hu. }
  destruct m; cbn [core_of]; auto.
  - apply K. intros. unfold norm_fsal. now rewrite Hn.
  - apply K. intros. unfold norm_dop853. now rewrite !Hn.
Qed.
Lemma C37_lemma m fuelc o o' rhs tb fuel : same_but_steps o o' ->
    let sv := solver_of m fuelc o rhs tb in
    let sv' := solver_of m fuelc o' rhs tb in
    (forall n u s, step sv fuel n u s = step sv' fuel n u s) /\
    (forall n u s, skip sv fuel n u s = skip sv' fuel n u s) /\
    (forall t s, run sv fuel t s = run sv' fuel t s) /\
    (forall t e s, run_events sv fuel t e s = run_events sv' fuel t e s) /\
    (forall cs s, session sv fuel cs s = session sv' fuel cs s).
Proof.
  intros H. cbn zeta. assert (K : solver_of m fuelc o rhs tb = solver_of m fuelc o' rhs tb).
  { unfold solver_of. now rewrite (core_steps_ignored m fuelc o o' rhs H). }
  rewrite K. auto 10.
Qed.
End C37.
