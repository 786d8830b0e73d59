(** Root finders over the reals. *)
From Coq Require Import List ZArith QArith Bool Arith Lia Reals Ranalysis5 Lra.
From Verif Require Import Base Scalar Vec MBuffer MZeros Laws PBound PVecR SpecZeros.
Import ListNotations.
Open Scope R_scope.

Lemma isclose_R (a b atol rtol : R) : @isclose Rops a b atol rtol = true <-> Rabs (a - b) <= atol + rtol * Rabs b.
Proof. unfold isclose. apply Rleb_true. Qed.
Lemma isclose_R_false (a b atol rtol : R) : @isclose Rops a b atol rtol = false <-> atol + rtol * Rabs b < Rabs (a - b).
Proof. unfold isclose. apply Rleb_false. Qed.
Lemma isclose_zero (a atol rtol : R) : @isclose Rops a zero atol rtol = true <-> Rabs a <= atol.
Proof.
  rewrite isclose_R. replace (@zero Rops) with 0 by (symmetry; apply zero_R).
  rewrite Rabs_R0, Rminus_0_r. split; lra.
Qed.
Lemma isclose_zero_false (a atol rtol : R) : @isclose Rops a zero atol rtol = false <-> atol < Rabs a.
Proof.
  rewrite isclose_R_false. replace (@zero Rops) with 0 by (symmetry; apply zero_R).
  rewrite Rabs_R0, Rminus_0_r. split; lra.
Qed.
Lemma same_sign_R (a b : R) : a <> 0 -> b <> 0 -> @same_sign Rops a b = true <-> 0 < a * b.
Proof.
  intros Ha Hb. unfold same_sign. change (@ltb Rops) with Rltb. change (@eqb Rops) with Reqb.
  replace (@zero Rops) with 0 by (symmetry; apply zero_R).
  rewrite !orb_true_iff, !andb_true_iff, !Rltb_true, !Reqb_true.
  split; intros H.
  - intuition; try contradiction; nra.
  - destruct (Rtotal_order a 0) as [|[|]]; try contradiction; destruct (Rtotal_order b 0) as [|[|]]; try contradiction; nra || intuition.
Qed.

(** ** bisect *)
Section Bisect.
Context {St : Type} (Inv : St -> Prop) (fn : R -> M St R) (g : R -> R) (l r : R).
Hypothesis EV : evaluates Inv fn g l r.

Local Notation bis_result := (SpecZeros.bis_result g).

Lemma bisect_loop_R (tol rtol : R) n : 0 <= tol -> forall a b mid s, Inv s ->
  l <= a < b -> b <= r -> sign_change g a b -> (mid = Some a \/ mid = Some b \/ n <> 0%nat) ->
  exists m s', @bisect_loop Rops St fn tol rtol n a b (g a) mid s = (Ret m, s') /\ Inv s' /\ bis_result tol n a b m.
Proof.
  intros Ht. induction n as [|n IH]; intros a b mid s Is Hab Hbr Hs Hm.
  - destruct Hm as [->|[->|Hm]]; [| |congruence]; cbn [bisect_loop]; eexists; exists s;
      (split; [reflexivity|split; [auto|split; [lra|right]]]); exists a, b; repeat split; try lra; auto; cbn; lra.
  - cbn [bisect_loop]. unfold bind. replace (@div Rops (@add Rops a b) two) with ((a + b) / 2) by
      (change ((a + b) / 2 = (a + b) / @two Rops); now rewrite two_R).
    assert (Hm2 : a < (a + b) / 2 < b) by lra. set (mm := (a + b) / 2) in *.
    destruct (EV mm s) as (s1 & -> & I1); [lra|auto|].
    destruct (@isclose Rops (g mm) zero tol rtol) eqn:ec.
    + apply isclose_zero in ec. eexists; exists s1. split; [reflexivity|]. split; auto. split; [lra|]. now left.
    + apply isclose_zero_false in ec. assert (Hn0 : g mm <> 0) by (intros e; rewrite e, Rabs_R0 in ec; lra).
      unfold sign_change in Hs. assert (Hga : g a <> 0) by nra.
      destruct (@same_sign Rops (g mm) (g a)) eqn:es.
      * apply same_sign_R in es; auto.
        destruct (IH mm b (Some mm) s1) as (m & s' & e & I' & Hb & K); auto; try lra.
        { unfold sign_change. destruct (Rtotal_order (g a) 0) as [|[|]]; nra. }
        exists m, s'. split; [exact e|]. split; auto. split; [lra|].
        destruct K as [K|(a' & b' & K1 & K2 & K3 & K4 & K5)]; [now left|right].
        exists a', b'. repeat split; try lra; auto. rewrite K4. unfold mm. cbn [pow]. field. apply pow_nonzero; lra.
      * assert (es' : ~ 0 < g mm * g a) by (intros c; apply same_sign_R in c; auto; congruence).
        destruct (IH a mm (Some mm) s1) as (m & s' & e & I' & Hb & K); auto; try lra.
        { unfold sign_change. destruct (Rtotal_order (g a) 0) as [|[|]]; try contradiction;
          destruct (Rtotal_order (g mm) 0) as [|[|]]; try contradiction; nra. }
        exists m, s'. split; [exact e|]. split; auto. split; [lra|].
        destruct K as [K|(a' & b' & K1 & K2 & K3 & K4 & K5)]; [now left|right].
        exists a', b'. repeat split; try lra; auto. rewrite K4. unfold mm. cbn [pow]. field. apply pow_nonzero; lra.
Qed.

(** what a call does *)
Lemma bisect_R (tol rtol : R) n s : 0 <= tol -> n <> 0%nat -> Inv s -> l < r ->
  (g l * g r <= 0 ->
    exists m s', @bisect Rops St fn l r tol rtol n s = (Ret m, s') /\ Inv s' /\ bis_result tol n l r m) /\
  (0 < g l * g r ->
    exists s', @bisect Rops St fn l r tol rtol n s = (Raise ValueError, s') /\ Inv s').
Proof.
  intros Ht Hn Is Hlr. unfold bisect. change (@ltb Rops l r) with (Rltb l r).
  rewrite (proj2 (Rltb_true l r) Hlr). cbn [negb]. unfold bind.
  destruct (EV l s) as (s1 & -> & I1); [lra|auto|].
  change (@eqb Rops) with Reqb. change (@ltb Rops) with Rltb. change (@mul Rops) with Rmult.
  replace (@zero Rops) with 0 by (symmetry; apply zero_R).
  destruct (Reqb (g l) 0) eqn:e0.
  { apply Reqb_true in e0. split; [intros _|intros; nra]. eexists; exists s1. split; [reflexivity|].
    split; auto. split; [lra|]. left. rewrite e0, Rabs_R0. lra. }
  apply Reqb_false in e0. destruct (EV r s1) as (s2 & -> & I2); [lra|auto|].
  destruct (Reqb (g r) 0) eqn:e1.
  { apply Reqb_true in e1. split; [intros _|intros; nra]. eexists; exists s2. split; [reflexivity|].
    split; auto. split; [lra|]. left. rewrite e1, Rabs_R0. lra. }
  apply Reqb_false in e1. split; intros Hp.
  - assert (Hneg : g l * g r < 0) by (pose proof (Rmult_integral_contrapositive (g l) (g r) (conj e0 e1)); lra).
    rewrite (proj2 (Rltb_true _ _) Hneg). cbn [negb].
    destruct (bisect_loop_R tol rtol n Ht l r None s2 I2) as (m & s' & K); auto; try lra. exists m, s'. exact K.
  - rewrite (proj2 (Rltb_false _ _)) by lra. cbn [negb]. exists s2. split; auto.
Qed.
End Bisect.

Lemma bisect_not_lt {St} (fn : R -> M St R) (l r tol rtol : R) n s : ~ l < r ->
  @bisect Rops St fn l r tol rtol n s = (Raise ValueError, s).
Proof.
  intros H. unfold bisect. change (@ltb Rops l r) with (Rltb l r). rewrite (proj2 (Rltb_false l r)) by lra. reflexivity.
Qed.

(** a continuous function has a zero in the last bracket *)
Lemma ivt_signed (g : R -> R) a b : a < b -> (forall x, a <= x <= b -> continuity_pt g x) -> sign_change g a b ->
  exists z, a <= z <= b /\ g z = 0.
Proof.
  intros Hab Hc Hs. unfold sign_change in Hs. destruct (Rtotal_order (g a) 0) as [H|[H|H]]; try nra.
  - destruct (IVT_interv g a b Hc Hab) as (z & Hz & e); try nra. now exists z.
  - destruct (IVT_interv (opp_fct g) a b) as (z & Hz & e); auto.
    + intros x Hx. apply continuity_pt_opp. auto.
    + unfold opp_fct. lra.
    + unfold opp_fct. nra.
    + exists z. split; auto. unfold opp_fct in e. lra.
Qed.
Lemma bis_result_zero (g : R -> R) tol n l r m : l < r -> 0 <= tol ->
  (forall x, l <= x <= r -> continuity_pt g x) -> bis_result g tol n l r m ->
  Rabs (g m) <= tol \/ exists z, l <= z <= r /\ g z = 0 /\ Rabs (m - z) <= (r - l) / 2 ^ n.
Proof.
  intros Hlr Ht Hc (Hm & [K|(a & b & K1 & K2 & K3 & K4 & K5)]); [now left|right].
  destruct (ivt_signed g a b) as (z & Hz & e); [lra| |auto|].
  - intros x Hx. apply Hc. lra.
  - exists z. repeat split; try lra. rewrite <- K4. unfold Rabs. destruct (Rcase_abs _); lra.
Qed.

(** ** secant *)
Section Secant.
Variables (func : R -> outcome R) (g : R -> R).
Hypothesis FG : forall p, func p = Ret (g p).
Variables tol rtol : R.
Hypothesis Htol : 0 <= tol.
Hypothesis Hrtol : 0 <= rtol.

Lemma chord_code a b : g a <> g b ->
  (if @ltb Rops (@absT Rops (g a)) (@absT Rops (g b))
   then @div Rops (@add Rops (@mul Rops (@div Rops (@opp Rops (g a)) (g b)) b) a) (@sub Rops one (@div Rops (g a) (g b)))
   else @div Rops (@add Rops (@mul Rops (@div Rops (@opp Rops (g b)) (g a)) a) b) (@sub Rops one (@div Rops (g b) (g a))))
  = chord g a b.
Proof.
  intros H. change (@ltb Rops) with Rltb. change (@absT Rops) with Rabs. change (@div Rops) with Rdiv. change (@add Rops) with Rplus.
  change (@mul Rops) with Rmult. change (@sub Rops) with Rminus. change (@opp Rops) with Ropp.
  replace (@one Rops) with 1 by (symmetry; apply one_R). unfold chord.
  destruct (Rltb (Rabs (g a)) (Rabs (g b))) eqn:e.
  - apply Rltb_true in e. assert (g b <> 0) by (intros c; rewrite c, Rabs_R0 in e; pose proof (Rabs_pos (g a)); lra).
    match goal with |- @eq _ ?a ?b => change (@eq R a b) end. field. repeat split; auto; try lra.
  - apply Rltb_false in e. assert (g a <> 0).
    { intros c. rewrite c, Rabs_R0 in e. apply H. rewrite c. pose proof (Rabs_pos (g b)).
      destruct (Req_dec (g b) 0); auto. apply Rabs_no_R0 in H1. lra. }
    match goal with |- @eq _ ?a ?b => change (@eq R a b) end. field. repeat split; auto; try lra.
Qed.

Local Notation sec_end := (SpecZeros.sec_end g tol rtol).

Lemma secant_loop_R x0 x1 todo : forall k a b, secant_pair g x0 x1 k a b -> a <> b ->
  (k <> 0%nat -> tol + rtol * Rabs a < Rabs (b - a)) -> (k + todo <> 0)%nat ->
  exists r, @secant_loop Rops func tol rtol todo k a (g a) b (g b) (k + 2) = Ret r /\ sec_end x0 x1 k todo r.
Proof.
  induction todo as [|todo IH]; intros k a b Hp Hab Hc Hk.
  - cbn [secant_loop]. destruct k as [|k]; [lia|]. eexists. split; [reflexivity|]. unfold sec_end. cbn [snd fst root iters funcalls conv].
    exists a, b. rewrite Nat.add_0_r. auto 10.
  - cbn [secant_loop]. change (@eqb Rops (g b) (g a)) with (Reqb (g b) (g a)).
    destruct (Reqb (g b) (g a)) eqn:e.
    + apply Reqb_true in e. change (@eqb Rops b a) with (Reqb b a). rewrite (proj2 (Reqb_false b a)) by auto.
      eexists. split; [reflexivity|]. unfold sec_end. cbn [snd fst root iters funcalls].
      exists k, a, b. repeat split; auto; try lia. change (@div Rops) with Rdiv. change (@add Rops) with Rplus.
      now replace (@two Rops) with 2 by (symmetry; apply two_R).
    + apply Reqb_false in e. assert (e' : g a <> g b) by auto. pose proof (chord_code a b e') as CC.
      rewrite CC.
      destruct (@isclose Rops (chord g a b) b tol rtol) eqn:ec.
      * apply isclose_R in ec. eexists. split; [reflexivity|]. unfold sec_end. cbn [snd fst root iters funcalls conv].
        exists k, a, b. repeat split; auto; lia.
      * apply isclose_R_false in ec. rewrite FG. cbn [obind].
        replace (k + 2 + 1)%nat with (S k + 2)%nat by lia. replace (k + 1)%nat with (S k) by lia.
        destruct (IH (S k) b (chord g a b)) as (r & Hr & Hend).
        -- now constructor.
        -- intros c. rewrite <- c in ec. rewrite Rminus_diag_eq, Rabs_R0 in ec by auto.
           pose proof (Rmult_le_pos _ _ Hrtol (Rabs_pos b)). lra.
        -- auto.
        -- lia.
        -- exists r. split; [exact Hr|]. unfold sec_end in *. replace (k + S todo)%nat with (S k + todo)%nat by lia. exact Hend.
Qed.

Lemma second_model x0 : @secant_x1 Rops x0 = second x0 None.
Proof.
  unfold secant_x1, secant_eps, second. change (@add Rops) with Rplus. change (@mul Rops) with Rmult. change (@opp Rops) with Ropp.
  change (@leb Rops) with Rleb. rewrite lit_R. replace (@one Rops) with 1 by (symmetry; apply one_R). replace (@zero Rops) with 0 by (symmetry; apply zero_R). cbn [Qnum Qden].
  match goal with |- @eq _ ?a ?b => change (@eq R a b) end. cbv zeta.
  destruct (Rleb 0 (x0 * (1 + 1 / 10000))) eqn:h; destruct (Rle_dec 0 (x0 * (1 + 1 / 10000))) as [k|k].
  - reflexivity.
  - apply Rleb_true in h. contradiction.
  - apply Rleb_false in h. lra.
  - lra.
Qed.
Lemma second_ne x0 : second x0 None <> x0.
Proof. unfold second. destruct (Rle_dec 0 _); nra. Qed.

Lemma newton_secant_R x0 x1 maxiter : (0 < maxiter)%nat -> x1 <> Some x0 ->
  exists r, @newton_ Rops func x0 None None x1 tol rtol maxiter = Ret r /\ sec_end x0 (second x0 x1) 0 maxiter r.
Proof.
  intros Hm Hx. unfold newton_. replace (@mul Rops one x0) with x0
    by (change (x0 = @one Rops * x0); rewrite one_R; lra).
  assert (E1 : match x1 with Some x => if @eqb Rops x x0 then Raise ValueError else Ret x | None => Ret (secant_x1 x0) end
             = Ret (second x0 x1)).
  { destruct x1 as [x|]; [|rewrite second_model; reflexivity]. change (@eqb Rops) with Reqb. rewrite (proj2 (Reqb_false x x0)); auto. congruence. }
  rewrite E1. cbn [obind]. rewrite !FG. cbn [obind].
  assert (Hne : second x0 x1 <> x0).
  { destruct x1 as [x|]; [cbn; congruence|apply second_ne]. }
  change (@ltb Rops (@absT Rops (g (second x0 x1))) (@absT Rops (g x0))) with (Rltb (Rabs (g (second x0 x1))) (Rabs (g x0))).
  destruct (Rltb (Rabs (g (second x0 x1))) (Rabs (g x0))) eqn:e.
  - apply Rltb_true in e. apply (secant_loop_R x0 (second x0 x1) maxiter 0 (second x0 x1) x0); auto; try lia. now constructor.
  - apply Rltb_false in e. apply (secant_loop_R x0 (second x0 x1) maxiter 0 x0 (second x0 x1)); auto; try lia. now constructor.
Qed.
End Secant.

Lemma chord_affine (g : R -> R) a b : a <> 0 -> (forall p, g p = a * p + b) ->
  forall p q, p <> q -> chord g p q = - b / a.
Proof.
  intros Ha Hg p q Hpq. unfold chord. rewrite !Hg. field. split; auto.
  replace (a * q + b - (a * p + b)) with (a * (q - p)) by ring. apply Rmult_integral_contrapositive. split; auto. lra.
Qed.
Lemma secant_affine_pair (g : R -> R) a b x0 x1 : a <> 0 -> (forall p, g p = a * p + b) -> x0 <> x1 ->
  forall k p q, secant_pair g x0 x1 k p q -> (p <> q \/ q = - b / a) /\ (k <> 0%nat -> q = - b / a) /\
    ((1 < k)%nat -> p = - b / a).
Proof.
  intros Ha Hg Hx. induction 1 as [H|H|k p q _ (I1 & I2 & I3)].
  - repeat split; auto; lia.
  - repeat split; auto; lia.
  - assert (Hc : chord g p q = - b / a).
    { destruct (Req_dec p q) as [e|n].
      - destruct I1 as [c|c]; [contradiction|]. unfold chord. rewrite (Hg q), c.
        replace (a * (- b / a) + b) with 0 by (field; auto). unfold Rdiv. rewrite !Rmult_0_l. lra.
      - now apply chord_affine. }
    repeat split; auto. intros Hk. apply I2. lia.
Qed.
Lemma secant_affine (func : R -> outcome R) a b (tol rtol x0 : R) x1 maxiter :
  a <> 0 -> (forall p, func p = Ret (a * p + b)) -> 0 <= tol -> 0 <= rtol -> (1 < maxiter)%nat -> x1 <> Some x0 ->
  exists r, @newton_ Rops func x0 None None x1 tol rtol maxiter = Ret (r, OK) /\ root r = - b / a /\ (funcalls r <= 3)%nat.
Proof.
  intros Ha Hf Ht Hr Hm Hx.
  destruct (newton_secant_R func (fun p => a * p + b) Hf tol rtol Ht Hr x0 x1 maxiter) as ([r fl] & K & Hend); [lia|auto|].
  assert (Hne : x0 <> second x0 x1).
  { destruct x1 as [x|]; [cbn; congruence|]. intro c. symmetry in c. revert c. apply second_ne. }
  pose proof (secant_affine_pair (fun p => a * p + b) a b x0 (second x0 x1) Ha (fun p => eq_refl) Hne) as SP.
  unfold sec_end in Hend. cbn [snd fst] in Hend. destruct fl; [| contradiction| |].
  - destruct Hend as (j & p & q & H1 & H2 & H3 & H4 & H5 & H6 & H7 & H8). exists r. split; auto.
    assert (Hpq : p <> q) by (intros ->; auto). split.
    + rewrite H4. apply chord_affine; auto.
    + rewrite H7. destruct (SP _ _ _ H1) as (S1 & S2 & S3). destruct j as [|[|j]]; try lia.
      exfalso. apply Hpq. rewrite S2, S3 by lia. reflexivity.
  - destruct Hend as (j & p & q & H1 & H2 & H3 & H4 & _). exfalso. apply H4. nra.
  - destruct Hend as (p & q & H1 & H2 & _). exfalso. destruct (SP _ _ _ H1) as (S1 & S2 & S3).
    rewrite S2, S3 in H2 by lia. rewrite Rminus_diag_eq, Rabs_R0 in H2 by auto.
    pose proof (Rmult_le_pos _ _ Hr (Rabs_pos (- b / a))). lra.
Qed.

(** ** Newton and Halley *)
Section Newton.
Variables (func fp : R -> outcome R) (fp2 : option (R -> outcome R)) (g g1 : R -> R) (g2 : option (R -> R)).
Hypothesis FG : forall p, func p = Ret (g p).
Hypothesis FG1 : forall p, fp p = Ret (g1 p).
Hypothesis FG2 : match fp2, g2 with
  | None, None => True | Some f, Some h => forall p, f p = Ret (h p) | _, _ => False end.
Variables tol rtol : R.

(** evaluations per iteration *)
Local Notation per_iter := (SpecZeros.per_iter g2).

Local Notation nr_end := (SpecZeros.nr_end g g1 g2 tol rtol).

Lemma nr_loop_R x0 todo : forall k p, newton_iter g g1 g2 x0 k p -> (k + todo <> 0)%nat ->
  exists r, @nr_loop Rops func fp fp2 tol rtol todo k p (per_iter * k) = Ret r /\ nr_end x0 (k + todo) r.
Proof.
  induction todo as [|todo IH]; intros k p Hp Hk.
  - cbn [nr_loop]. destruct k as [|k]; [lia|]. eexists. split; [reflexivity|]. unfold nr_end.
    cbn [snd fst root iters funcalls conv]. rewrite Nat.add_0_r. auto.
  - cbn [nr_loop]. rewrite FG. cbn [obind]. change (@eqb Rops) with Reqb.
    replace (@zero Rops) with 0 by (symmetry; apply zero_R).
    destruct (Reqb (g p) 0) eqn:e.
    { apply Reqb_true in e. eexists. split; [reflexivity|]. unfold nr_end. cbn [snd fst root iters funcalls conv].
      exists k, p. split; auto. split; [lia|]. split; auto. }
    apply Reqb_false in e. rewrite FG1. cbn [obind].
    destruct (Reqb (g1 p) 0) eqn:e1.
    { apply Reqb_true in e1. eexists. split; [reflexivity|]. unfold nr_end. cbn [snd fst root iters funcalls conv].
      exists k, p. repeat split; auto; lia. }
    apply Reqb_false in e1.
    match goal with |- context [obind ?x _] =>
      assert (KEY : exists st, x = Ret (st, (per_iter * (k + 1))%nat) /\ p - st = newton_next g g1 g2 p) end.
    { unfold newton_next, per_iter. destruct fp2 as [f2|], g2 as [h|]; try contradiction.
      - rewrite FG2. cbn [obind]. change (@ltb Rops) with Rltb. change (@absT Rops) with Rabs. change (@div Rops) with Rdiv.
        change (@mul Rops) with Rmult. change (@sub Rops) with Rminus.
        replace (@two Rops) with 2 by (symmetry; apply two_R). replace (@one Rops) with 1 by (symmetry; apply one_R). cbv zeta.
        set (d := g p / g1 p). set (adj := d * h p / g1 p / 2). unfold Rltb.
        destruct (Rlt_dec (Rabs adj) 1); eexists; (split; [f_equal; f_equal; lia|reflexivity]).
      - eexists. split; [f_equal; f_equal; lia|reflexivity]. }
    destruct KEY as (st & KEY & Hst). rewrite KEY. cbn [obind]. change (@sub Rops p st) with (p - st). rewrite Hst.
    destruct (@isclose Rops (newton_next g g1 g2 p) p tol rtol) eqn:ec.
    + apply isclose_R in ec. eexists. split; [reflexivity|]. unfold nr_end. cbn [snd fst root iters funcalls conv].
      exists k, p. split; auto. split; [lia|]. split; auto. right. repeat split; auto.
    + replace (k + S todo)%nat with (S k + todo)%nat by lia. replace (k + 1)%nat with (S k) by lia.
      apply IH; [now constructor|lia].
Qed.

Lemma newton_nr_R x0 x1 maxiter : (0 < maxiter)%nat ->
  exists r, @newton_ Rops func x0 (Some fp) fp2 x1 tol rtol maxiter = Ret r /\ nr_end x0 maxiter r.
Proof.
  intros Hm. unfold newton_. replace (@mul Rops one x0) with x0
    by (change (x0 = @one Rops * x0); rewrite one_R; lra).
  destruct (nr_loop_R x0 maxiter 0 x0) as (r & Hr & He); [constructor|lia|].
  rewrite Nat.mul_0_r in Hr. exists r. auto.
Qed.
End Newton.

Lemma newton_affine (func fp : R -> outcome R) a b (tol rtol x0 : R) x1 maxiter :
  a <> 0 -> (forall p, func p = Ret (a * p + b)) -> (forall p, fp p = Ret a) -> (1 < maxiter)%nat ->
  exists r, @newton_ Rops func x0 (Some fp) None x1 tol rtol maxiter = Ret (r, OK) /\ root r = - b / a /\ (funcalls r <= 3)%nat.
Proof.
  intros Ha Hf Hp Hm.
  destruct (newton_nr_R func fp None (fun p => a * p + b) (fun _ => a) None Hf Hp I tol rtol x0 x1 maxiter) as ([r fl] & K & Hend); [lia|].
  assert (IT : forall k p, newton_iter (fun p => a * p + b) (fun _ => a) None x0 k p -> (k <> 0%nat -> p = - b / a) /\ (k < 2)%nat).
  { induction 1 as [|k p _ (I1 & I2) H1 H2]. split; lia || congruence. split.
    - intros _. unfold newton_next; cbv beta iota zeta. match goal with |- @eq _ ?u ?v => change (@eq R u v) end. field. auto.
    - destruct k; [lia|]. exfalso. apply H1. rewrite I1 by lia. field. auto. }
  unfold nr_end in Hend. cbn [snd fst] in Hend. destruct fl; [| |contradiction|].
  - exists r. split; auto. destruct Hend as (k & p & H1 & H2 & _ & [(H3 & H4 & H5 & H6)|(H3 & H4 & H5 & H6 & H7 & H8)]).
    + rewrite H4, H6. cbn [per_iter]. destruct (IT _ _ H1) as (_ & I2). split; [|lia].
      apply (Rmult_eq_reg_l a); auto. replace (a * (- b / a)) with (- b) by (field; auto). lra.
    + rewrite H5, H8. cbn [per_iter]. destruct (IT _ _ H1) as (I1 & I2). split.
      * unfold newton_next; cbv beta iota zeta. match goal with |- @eq _ ?u ?v => change (@eq R u v) end. field. auto.
      * destruct k; [cbn; lia|]. exfalso. apply H3. rewrite I1 by lia. field. auto.
  - destruct Hend as (k & p & _ & _ & _ & H & _). exfalso. auto.
  - destruct Hend as (H & _). apply IT in H. lia.
Qed.
