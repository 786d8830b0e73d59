(** Zero-stability of the Adams-Moulton and BDF classes. *)
From Coq Require Import List ZArith QArith Bool Arith Lia Reals Lra Qreals.
From Verif Require Import Base Scalar Vec MBuffer MZeros MSteps MApi MDop853 MClasses Laws Spec SpecInst PBound PVecR SpecMS PMS PMS2 PMS3 PMS5 PConv1 POrd1 PLmm1.
Import ListNotations.
Open Scope R_scope.

(** linear forms with rational coefficients *)
Fixpoint addQ (a b : list Q) : list Q :=
  match a, b with x :: a', y :: b' => Qred (x + y) :: addQ a' b' | [], _ => b | _, [] => a end.
Fixpoint linQ (S : list Q) (F : list (list Q)) : list Q :=
  match S, F with s :: S', f :: F' => addQ (map (fun x => Qred (s * x)) f) (linQ S' F') | _, _ => [] end.
Definition formQ (f : list Q) (w : list R) : R := dot (map Q2R f) w.
Lemma add_form a : forall b w, formQ (addQ a b) w = formQ a w + formQ b w.
Proof.
  unfold formQ. induction a as [|x a IH]; intros [|y b] [|z w]; cbn [addQ map dot]; try lra.
  rewrite IH, (Qeq_eqR _ _ (Qred_correct _)), Q2R_plus. lra.
Qed.
Lemma scale_form s f : forall w, formQ (map (fun x => Qred (s * x)) f) w = Q2R s * formQ f w.
Proof.
  unfold formQ. induction f as [|x f IH]; intros [|z w]; cbn [map dot]; try lra. rewrite IH, (Qeq_eqR _ _ (Qred_correct _)), Q2R_mult. lra.
Qed.
Lemma lin_form S : forall F w, formQ (linQ S F) w = dot (map Q2R S) (map (fun f => formQ f w) F).
Proof.
  induction S as [|s S IH]; intros [|f F] w; cbn [linQ map dot]; try (unfold formQ; cbn; destruct w; reflexivity).
  rewrite add_form, scale_form, IH. reflexivity.
Qed.
Definition compQ (S : list Q) (F : list (list Q)) : list (list Q) := skipn 1 (F ++ [linQ S F]).
Fixpoint iterQ (S : list Q) (m : nat) (F : list (list Q)) : list (list Q) := match m with O => F | S m' => iterQ S m' (compQ S F) end.
Lemma iter_form S m : forall F w, iter_comp (map Q2R S) m (map (fun f => formQ f w) F) = map (fun f => formQ f w) (iterQ S m F).
Proof.
  induction m as [|m IH]; intros F w; cbn [iter_comp iterQ]; [reflexivity|]. rewrite <- IH. f_equal.
  unfold comp, shift, compQ. rewrite <- lin_form. change [formQ (linQ S F) w] with (map (fun f => formQ f w) [linQ S F]). rewrite <- map_app.
  symmetry. destruct (F ++ [linQ S F]); reflexivity.
Qed.
Definition idQ (p : nat) : list (list Q) := map (fun i => repeat 0%Q i ++ [1%Q]) (seq 0 p).
Lemma id_form w : map (fun f => formQ f w) (idQ (length w)) = w.
Proof.
  unfold idQ. rewrite map_map.
  assert (G : forall w i, formQ (repeat 0%Q i ++ [1%Q]) w = nth i w 0).
  { clear. unfold formQ. induction w as [|x w IH]; intros [|i]; cbn [repeat app map dot nth]; try reflexivity.
    - rewrite RMicromega.Q2R_1. destruct w; cbn; lra.
    - rewrite IH, RMicromega.Q2R_0. lra. }
  apply (nth_ext _ _ 0 0); [now rewrite map_length, seq_length|]. intros i Hi. rewrite map_length, seq_length in Hi.
  rewrite (nth_indep _ 0 (formQ (repeat 0%Q 0 ++ [1%Q]) w)) by now rewrite map_length, seq_length.
  rewrite (map_nth (fun i => formQ (repeat 0%Q i ++ [1%Q]) w)), seq_nth by exact Hi. apply G.
Qed.
Definition absQ (f : list Q) : Q := fold_right (fun x s => Qred (Qabs.Qabs x + s)) 0%Q f.
Lemma abs_form f : sumA (map Q2R f) = Q2R (absQ f).
Proof.
  induction f as [|x f IH]; cbn [map absQ fold_right]; [cbn; lra|]. fold (absQ f). rewrite sumA_cons, IH, (Qeq_eqR _ _ (Qred_correct _)), Q2R_plus. f_equal.
  apply Qabs.Qabs_case; intros H; apply Qle_Rle in H; rewrite RMicromega.Q2R_0 in H.
  - now apply Rabs_pos_eq.
  - rewrite Q2R_opp. now apply Rabs_left1.
Qed.
Definition contractsQ (S : list Q) (m : nat) (th : Q) : bool :=
  (0 <? m)%nat && Qle_bool 0 th && negb (Qle_bool 1 th) && forallb (fun f => Qle_bool (absQ f) th) (iterQ S m (idQ (length S))).
Lemma contracts_sound S m th : contractsQ S m th = true -> contracts (map Q2R S) m (Q2R th).
Proof.
  unfold contractsQ. intros H. apply andb_prop in H as (H & H4). apply andb_prop in H as (H & H3). apply andb_prop in H as (H1 & H2).
  apply Nat.ltb_lt in H1. apply Qle_bool_iff in H2. apply Qle_Rle in H2. rewrite RMicromega.Q2R_0 in H2.
  apply negb_true_iff in H3. rewrite forallb_forall in H4.
  split; [exact H1|]. split.
  - split; [exact H2|]. rewrite <- RMicromega.Q2R_1. apply Qlt_Rlt. apply Qnot_le_lt. intros X. apply Qle_bool_iff in X. congruence.
  - intros w Hw. rewrite map_length in Hw. rewrite <- (id_form w) at 1. rewrite Hw, iter_form. pose proof (mx_pos w).
    apply mx_le; [apply Rmult_le_pos; lra|]. intros x Hx. apply in_map_iff in Hx as (f & <- & Hf). specialize (H4 f Hf). apply Qle_bool_iff, Qle_Rle in H4.
    unfold formQ. eapply Rle_trans; [apply dot_mx|]. rewrite abs_form. apply Rmult_le_compat_r; lra.
Qed.
Fixpoint psumsQ (acc : Q) (A : list Q) : list Q := match A with a :: ((_ :: _) as A') => Qred (acc + a) :: psumsQ (Qred (acc + a)) A' | _ => [] end.
Lemma psums_form A : forall acc, psums (Q2R acc) (map Q2R A) = map Q2R (psumsQ acc A).
Proof.
  induction A as [|a [|b A] IH]; intros acc; [reflexivity|reflexivity|].
  change (psumsQ acc (a :: b :: A)) with (Qred (acc + a) :: psumsQ (Qred (acc + a)) (b :: A)).
  change (map Q2R (a :: b :: A)) with (Q2R a :: map Q2R (b :: A)).
  change (psums (Q2R acc) (Q2R a :: map Q2R (b :: A))) with (Q2R acc + Q2R a :: psums (Q2R acc + Q2R a) (map Q2R (b :: A))).
  cbn [map]. rewrite <- Q2R_plus, <- (Qeq_eqR _ _ (Qred_correct (acc + a))). f_equal. apply IH.
Qed.
Lemma contracts_A (A : list R) (AQ : list Q) m th : A = map Q2R AQ -> contractsQ (psumsQ 0 AQ) m th = true -> exists m th, contracts (psums 0 A) m th.
Proof. intros -> H. exists m, (Q2R th). rewrite <- RMicromega.Q2R_0, psums_form. now apply contracts_sound. Qed.

(** what the convergence proof uses of a formula *)
Definition zero_stable (A B : list R) (Bn : R) (k : nat) : Prop :=
  (1 <= k)%nat /\ A <> [] /\ length A = length B /\ sumR A = -1 /\ (exists m th, contracts (psums 0 A) m th) /\ exact_deg A B Bn k.
Ltac certify q mm th :=
  split; [lia|]; split; [discriminate|]; split; [reflexivity|]; split; [cbn; lra|]; split;
  [apply (contracts_A _ q mm th); [cbn [map]; unfold Q2R; cbn [Qnum Qden]; repeat (apply (f_equal2 (@cons R)); [lra|]); reflexivity|vm_compute; reflexivity]|].
Lemma implicit_stable k m : In (k, m) (am_table ++ bdf_table) -> exists A B Bn, m = @ImplMS Rops A B Bn /\ zero_stable A B Bn k.
Proof.
  intros H.
  assert (X : exact_meth m k). { apply in_app_or in H as [H|H]; [apply (am_spec _ _ H)|apply (bdf_spec _ _ H)]. }
  cbn [app am_table bdf_table In] in H.
  destruct H as [H|[H|[H|[H|[H|[H|[H|[H|[H|[]]]]]]]]]]; injection H as <- <-; cbv [AM1 AM2 AM3 BDF1 BDF2 BDF3 BDF4 BDF5 BDF6 am bdf] in *; 
    destruct X as (_ & X); revert X; rtidy; intros X; (do 3 eexists; split; [reflexivity|]).
  - certify ([-1 # 1]%Q) 1%nat (0%Q). exact X.
  - certify ([-1 # 1]%Q) 1%nat (0%Q). exact X.
  - certify ([0; -1 # 1]%Q) 1%nat (0%Q). exact X.
  - certify ([-1 # 1]%Q) 1%nat (0%Q). exact X.
  - certify ([1 # 3; -4 # 3]%Q) 1%nat (1 # 2)%Q. exact X.
  - certify ([-2 # 11; 9 # 11; -18 # 11]%Q) 2%nat (9 # 10)%Q. exact X.
  - certify ([3 # 25; -16 # 25; 36 # 25; -48 # 25]%Q) 4%nat (9 # 10)%Q. exact X.
  - certify ([-12 # 137; 75 # 137; -200 # 137; 300 # 137; -300 # 137]%Q) 6%nat (9 # 10)%Q. exact X.
  - certify ([10 # 147; -72 # 147; 225 # 147; -400 # 147; 450 # 147; -360 # 147]%Q) 13%nat (9 # 10)%Q. exact X.
Qed.
