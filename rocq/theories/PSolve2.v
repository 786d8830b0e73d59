(** The constructors of the fixed step classes return instances in order. *)
From Coq Require Import List ZArith Bool Arith Lia Reals Lra.
From Verif Require Import Base Scalar Vec MBuffer MZeros MSteps MApi MClasses Laws Spec SpecInst
  PStep PKeeps PCore PHist PBound PVecR SpecRK PRK PDim PRun PRun2 PRun3 PFwd PTerm SpecMS PMS PMS2 SpecDense PDense PC2 PTop2 SpecConv SpecLive PVL4 PSolve1.
Import ListNotations.
Open Scope R_scope.

Definition neat (n k : nat) (c : @buffer Rops) : Prop :=
  buf_len k c /\ is_sorted (OT := Rops) (ts c) = true /\ Forall (fun v => length v = n) (ys c) /\ Forall (fun v => length v = n) (fs c).
Lemma Forall_skip1 {A} (Q : A -> Prop) l : Forall Q l -> Forall Q (skipn 1 l).
Proof. intros H. destruct H; cbn; [constructor|assumption]. Qed.
Lemma neat_push n k c (t : R) y f : neat n (S (S k)) c -> buf_t c <= t -> length y = n -> length f = n -> neat n (S (S k)) (push c t y f).
Proof.
  intros (W & S1 & Y & F) Ht Ly Lf. split; [now apply push_len|]. pose proof W as (W1 & W2 & W3).
  rewrite push_ts, push_ys, push_fs by (eapply nonnil_len; eauto). split; [|split].
  - destruct (ts c) as [|a [|b l]] eqn:e; cbn in W1; try lia. cbn [skipn]. destruct (sorted_cons _ _ S1) as (S2 & _).
    apply (sorted_snoc (OT := Rops)); [exact S2|discriminate|]. apply Rleb_true. unfold buf_t in Ht. rewrite e in Ht. exact Ht.
  - apply Forall_app. split; [now apply Forall_skip1|auto].
  - apply Forall_app. split; [now apply Forall_skip1|auto].
Qed.
Lemma neat_base m g (rhs : @rhs_t Rops) (t0 : R) y0 f h s n : garbage_ok m g -> length y0 = n -> length f = n -> rhs t0 y0 = Ret f -> init_base (OT := Rops) m g rhs t0 y0 h = Ret s ->
  neat n (len_history m) (cache s) /\ now s = t0 /\ state s = y0 /\ deriv s = f /\ hstep s = match h with Some x => x | None => one end /\ good rhs m s.
Proof.
  intros Hg Ly Lf Hr Hi. destruct (init_base_spec _ _ _ _ _ _ _ Hg Hi) as (G & f' & Hf & Ec & Eh). rewrite Hr in Hf. injection Hf as <-.
  destruct (len_history_pos m) as (k & Hk).
  split; [|split; [|split; [|split; [|split; [exact Eh|exact G]]]]]; try unfold now, state, deriv, buf_t, buf_y, buf_f; rewrite Ec; cbn [ts ys fs].
  - split; [rewrite <- Ec; apply G|]. cbn [ts ys fs]. split; [apply repeat_sorted|]. split; now apply Forall_repeat.
  - rewrite Hk. apply last_repeat. lia.
  - rewrite Hk. apply last_repeat. lia.
  - rewrite Hk. apply last_repeat. lia.
Qed.

Section I.
Context {E : @Env Rops}.
Variables (rhs : @rhs_t Rops) (n : nat).
Hypothesis Hk : keeps_dim (OT := Rops) n rhs.
Hypothesis Hd : defined_on n rhs.

Lemma neat_steady m h s : good rhs m s -> neat n (len_history m) (cache s) -> hstep s = h -> steady rhs n m h s.
Proof.
  intros G (_ & S1 & Y & F) Hh. split; [exact G|]. split; [split; assumption|]. split; [|exact Hh]. split; [exact S1|]. apply Rleb_true. lra.
Qed.
Lemma init_rk_steady m g (t0 : R) y0 h : garbage_ok m g -> length y0 = n -> exists s, init_rk (OT := Rops) m g rhs t0 y0 (Some h) = Ret s /\ steady rhs n m h s /\ now s = t0.
Proof.
  intros Hg Ly. destruct (Hd t0 y0 Ly) as (f & Hf). pose proof (Hk _ _ _ Ly Hf) as Lf. unfold init_rk. unfold init_base at 1. rewrite Hf. cbn [obind]. eexists. split; [reflexivity|].
  match goal with |- steady _ _ _ _ ?s /\ _ => assert (Hi : init_base (OT := Rops) m g rhs t0 y0 (Some h) = Ret s) by (unfold init_base; rewrite Hf; reflexivity) end.
  destruct (neat_base m g rhs t0 y0 f (Some h) _ n Hg Ly Lf Hf Hi) as (N1 & N2 & _ & _ & N3 & G). split; [now apply neat_steady|exact N2].
Qed.

Lemma loop_neat m1 fuel1 o1 h k : explicit m1 -> shaped m1 -> is_fixed m1 = true -> 0 < h -> forall q x c, steady rhs n m1 h x -> neat n (S (S k)) c -> buf_t c <= now x ->
  exists c', fs_fixed_loop (OT := Rops) q (solver_of (E := E) m1 fuel1 o1 rhs PInf) x c = Ret c' /\ neat n (S (S k)) c' /\ (q = 0%nat \/ buf_t c' = now x + INR q * h).
Proof.
  intros He Sh Fx Hh. induction q as [|q IH]; intros x c Sx Nc Ht.
  - exists c. split; [reflexivity|]. auto.
  - cbn [fs_fixed_loop]. rewrite step_none by reflexivity. cbn [s_core solver_of].
    destruct (explicit_core (E := E) rhs n Hk Hd m1 fuel1 o1 x He Sh) as (x' & C); [apply Sx|apply Sx|]. rewrite C.
    assert (Nw : ~ would_pass (@PInf Rops) x) by (unfold would_pass; cbn; discriminate).
    assert (Sx' : steady rhs n m1 h x').
    { eapply (steady_core (E := E) rhs n Hk m1 fuel1 o1 PInf); eauto. destruct m1; try contradiction; exact I. }
    destruct (core_fixed_now m1 fuel1 o1 rhs x x') as (N1 & _); [apply Sx|exact Fx|exact C|].
    pose proof Sx as (_ & _ & _ & Hx). rewrite Hx in N1. cbn in N1.
    destruct Sx' as (G' & D' & Sx'') eqn:eS. clear eS. destruct (dims_prev _ _ _ (proj1 G') D') as (_ & _ & Lf & Ly).
    destruct (IH x' (push c (buf_t (cache x')) (buf_y (cache x')) (buf_f (cache x')))) as (c' & Hl & Nc' & Tc').
    + split; auto.
    + apply neat_push; auto. change (buf_t c <= now x'). rewrite N1. lra.
    + rewrite (push_t (S k)) by apply Nc. apply Rle_refl.
    + exists c'. split; [exact Hl|]. split; [exact Nc'|]. right. destruct Tc' as [->|Tc'].
      * cbn [fs_fixed_loop] in Hl. injection Hl as <-. rewrite (push_t (S k)) by apply Nc. change (now x' = now x + INR 1 * h). rewrite N1. cbn. ring.
      * rewrite Tc', N1, S_INR. match goal with |- @eq _ ?a ?b => change (@eq R a b) end; change (@add Rops) with Rplus; ring.
Qed.

Lemma iterate_neat k j : forall c, neat n (S (S k)) c -> length (buf_y c) = n -> length (buf_f c) = n ->
  neat n (S (S k)) (iterate j (fun c => push (OT := Rops) c (buf_t c) (buf_y c) (buf_f c)) c).
Proof.
  induction j as [|j IH]; intros c Nc Ly Lf; [exact Nc|]. cbn [iterate].
  apply IH.
  - apply neat_push; auto. apply Rle_refl.
  - rewrite (push_y (S k)) by apply Nc. exact Ly.
  - rewrite (push_f (S k)) by apply Nc. exact Lf.
Qed.
(** a multistep class without first stepper, or started by an explicit Runge-Kutta class *)
Lemma init_ms_steady m g start (t0 : R) y0 h fs fuel0 : is_multistep m -> garbage_ok m g -> length y0 = n -> 0 < h ->
  (forall m1, start = Some m1 -> is_erk m1 /\ explicit m1 /\ shaped m1 /\ is_fixed m1 = true) -> starts (E := E) rhs t0 y0 h start fs ->
  exists s, init_ms (E := E) m g rhs t0 y0 (Some h) fs fuel0 = Ret s /\ steady rhs n m h s /\ now s <= t0 + INR (ms_order m) * h /\ built (E := E) rhs m s.
Proof.
  intros Hm Hg Ly Hh Hst Hs. destruct (Hd t0 y0 Ly) as (f & Hf). pose proof (Hk _ _ _ Ly Hf) as Lf.
  destruct (init_base (OT := Rops) m g rhs t0 y0 (Some h)) as [s0| |] eqn:Hi; [|unfold init_base in Hi; rewrite Hf in Hi; discriminate|unfold init_base in Hi; rewrite Hf in Hi; discriminate].
  destruct (neat_base m g rhs t0 y0 f (Some h) s0 n Hg Ly Lf Hf Hi) as (N0 & T0 & Y0 & F0 & H0 & G0).
  destruct (len_history_pos m) as (k & Lk). rewrite Lk in N0.
  assert (PO : 0 <= INR (ms_order m) * h) by (apply Rmult_le_pos; [apply pos_INR|lra]).
  assert (Hx : exists s, init_ms (E := E) m g rhs t0 y0 (Some h) fs fuel0 = Ret s /\ neat n (len_history m) (cache s) /\ hstep s = h /\ now s <= t0 + INR (ms_order m) * h).
  { assert (No : exists s, (Ret (set_cache (iterate (len_history m - 1) (fun c => push (OT := Rops) c (buf_t c) (buf_y c) (buf_f c)) (cache s0)) s0) : outcome (@st Rops)) = Ret s /\
      neat n (len_history m) (cache s) /\ hstep s = h /\ now s <= t0 + INR (ms_order m) * h).
    { eexists. split; [reflexivity|]. cbn [cache set_cache hstep]. split; [|split; [exact H0|]].
      - rewrite Lk. apply iterate_neat; auto; [rewrite <- Ly, <- Y0|rewrite <- Lf, <- F0]; reflexivity.
      - unfold now. cbn [cache set_cache]. destruct N0 as (W0 & _). rewrite (iterate_same (S k)) by exact W0.
        assert (Q : forall j c, buf_len (S (S k)) c -> buf_t (OT := Rops) c = t0 -> buf_t (push_all (OT := Rops) (@repeat (@T Rops * list (@T Rops) * list (@T Rops)) (t0, y0, f) j) c) = t0).
        { induction j as [|j IH]; intros c Wc Tc; [exact Tc|]. cbn [repeat push_all]. apply IH; [now apply push_len|]. now apply (push_t (S k)). }
        change (buf_t (cache s0)) with (now s0). change (buf_y (cache s0)) with (state s0). change (buf_f (cache s0)) with (deriv s0). rewrite T0, Y0, F0.
        rewrite Q by (auto; exact W0). lra. }
    unfold init_ms. rewrite Hi. cbn [obind]. destruct (Nat.eqb (ms_order m) 1) eqn:eo; [exact No|].
    destruct Hs as [|m1 g1 s1 fuel1 o1 Hg1 Hi1]; [exact No|]. cbn [obind fst snd].
    destruct (Hst m1 eq_refl) as (_ & He & Sh & Fx). unfold init_rk in Hi1.
    destruct (neat_base m1 g1 rhs t0 y0 f (Some h) s1 n Hg1 Ly Lf Hf Hi1) as (N1 & T1 & _ & _ & H1 & G1).
    assert (S1 : steady rhs n m1 h s1) by (now apply neat_steady).
    destruct (loop_neat m1 fuel1 o1 h k He Sh Fx Hh (ms_order m - 1) s1 (cache s0) S1 N0) as (c' & Hl & Nc & Tc).
    { change (now s0 <= now s1). rewrite T0, T1. apply Rle_refl. }
    rewrite Hl. cbn [obind]. eexists. split; [reflexivity|]. cbn [cache set_cache hstep]. rewrite Lk. split; [exact Nc|]. split; [exact H0|].
    unfold now. cbn [cache set_cache]. destruct Tc as [Eq|Tc].
    - rewrite Eq in Hl. cbn [fs_fixed_loop] in Hl. injection Hl as <-. change (now s0 <= t0 + INR (ms_order m) * h). rewrite T0. lra.
    - rewrite Tc, T1. apply Rplus_le_compat_l, Rmult_le_compat_r; [lra|]. apply le_INR. lia. }
  destruct Hx as (s & Is & Ns & Hs' & Ts).
  assert (Bs : built (E := E) rhs m s).
  { destruct Hs as [|m1 g1 s1 fuel1 o1 Hg1 Hi1]; [eapply built_ms; eauto|]. destruct (Hst m1 eq_refl) as (Er & _ & _ & Fx).
    destruct (neat_base m1 g1 rhs t0 y0 f (Some h) s1 n Hg1 Ly Lf Hf Hi1) as (_ & T1 & Y1 & _ & H1 & _).
    eapply (built_ms_fixed rhs m g t0 y0 (Some h) fuel0 s m1 s1); eauto. eapply built_rk; eauto. }
  exists s. split; [exact Is|]. split; [|split; [exact Ts|exact Bs]]. apply neat_steady; auto. exact (built_good _ _ _ Bs).
Qed.
End I.
