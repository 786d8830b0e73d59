(** clip, the floating-point limit of bisect, the decorators without numba. *)
From Coq Require Import List ZArith QArith Bool Arith Floats.SpecFloat.
From Verif Require Import Base Scalar Vec MBuffer MZeros MRegistry Laws.
Import ListNotations.

Section Clip.
Context {OT : Ops} {OL : OrdLaws OT}.
Lemma clip_lemma (x lo hi : T) : num x -> leb lo hi = true ->
  leb lo (clip x lo hi) = true /\ leb (clip x lo hi) hi = true /\
  clip (clip x lo hi) lo hi = clip x lo hi /\ (leb lo x = true -> leb x hi = true -> clip x lo hi = x).
Proof.
  intros Nx L. pose proof (ol_num_l _ _ L) as Nl. pose proof (ol_num_r _ _ L) as Nh.
  assert (NL : forall a b : T, leb a b = true -> ltb b a = false).
  { intros a b H. destruct (ltb b a) eqn:e; auto. apply ol_lt_nle in e. congruence. }
  assert (F : forall a, leb lo a = true -> leb a hi = true -> clip a lo hi = a).
  { intros a H1 H2. unfold clip, pymax. rewrite (NL _ _ H1). unfold pymin. now rewrite (NL _ _ H2). }
  assert (B : leb lo (clip x lo hi) = true /\ leb (clip x lo hi) hi = true).
  { unfold clip, pymax. destruct (ltb x lo) eqn:e.
    - unfold pymin. rewrite (NL _ _ L). auto.
    - assert (leb lo x = true).
      { destruct (leb lo x) eqn:e2; auto. apply ol_total in e2; auto. congruence. }
      unfold pymin. destruct (ltb hi x) eqn:e2; auto. split; auto.
      destruct (leb x hi) eqn:e3; auto. apply ol_total in e3; auto. congruence. }
  destruct B as (B1 & B2). repeat split; auto.
Qed.
End Clip.

(** a function of float values changing sign at 1/2 *)
Definition sf_tiny (pw : spec_float -> spec_float -> spec_float) (m : positive) (neg : bool) : spec_float := S754_finite neg m (-1074).
Definition sf_step pw (m : positive) (t : @T (SFops pw)) : M unit (@T (SFops pw)) :=
  ret (if @ltb (SFops pw) t (@lit (SFops pw) (1 # 2)) then sf_tiny pw m true else sf_tiny pw m false).
(** the two values are finite, non-zero and of opposite sign, and bisect raises *)
Lemma C63_lemma pw : exists (fn : @T (SFops pw) -> M unit (@T (SFops pw))) a b,
  fst (fn (@lit (SFops pw) 0) tt) = Ret a /\ fst (fn (@lit (SFops pw) 1) tt) = Ret b /\
  @ltb (SFops pw) a zero = true /\ @ltb (SFops pw) zero b = true /\
  fst (@bisect (SFops pw) unit fn (@lit (SFops pw) 0) (@lit (SFops pw) 1) (@lit (SFops pw) 0) (@lit (SFops pw) 0) 50 tt) = Raise ValueError.
Proof.
  exists (sf_step pw 1), (sf_tiny pw 1 true), (sf_tiny pw 1 false).
  repeat split; vm_compute; reflexivity.
Qed.

Lemma C65_lemma (f : pyval) : is_callable f = true ->
  decorate_bare f = Some f /\
  (forall args nkw, (forall g, args = [g] -> nkw = 0%nat -> is_callable g = false) -> decorate_with args nkw f = Some f).
Proof.
  intros Hf. split.
  - unfold decorate_bare. cbn. now rewrite Hf.
  - intros args nkw H. unfold decorate_with, noop_wrapped. destruct args as [|g [|? ?]], nkw; auto. now rewrite (H g).
Qed.
