(** Properties C59-C65: the root finders, isclose and clip, the decorators. *)
From Coq Require Import List ZArith QArith Qcanon Bool Arith Reals Lra Lia Floats.SpecFloat.
From Verif Require Import Base Scalar Vec MBuffer MZeros MSteps MApi MClasses MRegistry Laws Spec SpecInst
  PBound Ex SpecZeros PZeros PZeros2 PMisc.
Import ListNotations.
Local Open Scope R_scope.

(** * C59  bisect keeps a sign change and halves the interval *)
(** The function may keep state (the event functions read a lazily refreshed
    interpolator): [evaluates Inv fn g l r] says that it computes g on [l, r]. *)
Theorem C59 : forall {St} (Inv : St -> Prop) fn g (l r tol rtol : R) n s,
  evaluates Inv fn g l r -> 0 <= tol -> n <> 0%nat -> Inv s -> l < r ->
  (g l * g r <= 0 ->
    exists m s', @bisect Rops St fn l r tol rtol n s = (Ret m, s') /\ Inv s' /\ bis_result g tol n l r m) /\
  (0 < g l * g r ->
    exists s', @bisect Rops St fn l r tol rtol n s = (Raise ValueError, s') /\ Inv s').
Proof. intros St Inv fn g l r tol rtol n s H. exact (bisect_R Inv fn g l r H tol rtol n s). Qed.
Print Assumptions C59.
Theorem C59_order : forall {St} (fn : R -> M St R) (l r tol rtol : R) n s, ~ l < r ->
  @bisect Rops St fn l r tol rtol n s = (Raise ValueError, s).
Proof. exact @bisect_not_lt. Qed.
Print Assumptions C59_order.
(** For a continuous function the answer is within (r - l)/2^n of a zero, unless
    its value is already within the tolerance. *)
Theorem C59_zero : forall (g : R -> R) tol n l r m, l < r -> 0 <= tol ->
  (forall x, l <= x <= r -> continuity_pt g x) -> bis_result g tol n l r m ->
  Rabs (g m) <= tol \/ exists z, l <= z <= r /\ g z = 0 /\ Rabs (m - z) <= (r - l) / 2 ^ n.
Proof. exact bis_result_zero. Qed.
Print Assumptions C59_zero.
(** x^2 - 2 on [0, 2], and a run in exact rationals: three halvings *)
Example C59_ex : evaluates (fun _ : unit => True) (fun t => ret (t * t - 2)) (fun t => t * t - 2) 0 2 /\
  (fun t => t * t - 2) 0 * (fun t => t * t - 2) 2 <= 0.
Proof. split; [intros t s _ _; exists s; auto|cbv beta; lra]. Qed.
Example C59_ex_run : let f : @T QI -> M unit (@T QI) := fun t => ret (sub (mul t t) (qq 2)) in
  fst (@bisect QI unit f (qq 0) (qq 2) (qq 0) (qq 0) 3 tt) = Ret (qq (5 # 4)) /\
  fst (@bisect QI unit f (qq 2) (qq 3) (qq 0) (qq 0) 3 tt) = Raise ValueError.
Proof. vm_compute. auto. Qed.

(** * C60  newton (secant) contract *)
Theorem C60 : forall (func : R -> outcome R) (g : R -> R), (forall p, func p = Ret (g p)) ->
  forall tol rtol, 0 <= tol -> 0 <= rtol -> forall x0 x1 maxiter, (0 < maxiter)%nat -> x1 <> Some x0 ->
  exists r, @newton_ Rops func x0 None None x1 tol rtol maxiter = Ret r /\ sec_end g tol rtol x0 (second x0 x1) 0 maxiter r.
Proof. exact newton_secant_R. Qed.
Print Assumptions C60.
(** affine equations are solved exactly with three evaluations *)
Theorem C60_affine : forall (func : R -> outcome R) a b (tol rtol x0 : R) x1 maxiter,
  a <> 0 -> (forall p, func p = Ret (a * p + b)) -> 0 <= tol -> 0 <= rtol -> (1 < maxiter)%nat -> x1 <> Some x0 ->
  exists r, @newton_ Rops func x0 None None x1 tol rtol maxiter = Ret (r, OK) /\ root r = - b / a /\ (funcalls r <= 3)%nat.
Proof. exact secant_affine. Qed.
Print Assumptions C60_affine.
(** the public functions: newton(disp=True), newton(disp=False), j_newton *)
Theorem C60_api : forall (func : R -> outcome R) x0 fp fp2 x1 (tol rtol : R) (maxiter : Z) r, 0 < tol -> (1 <= maxiter)%Z ->
  @newton_ Rops func x0 fp fp2 x1 tol rtol (Z.to_nat maxiter) = Ret r ->
  @newton Rops func x0 fp fp2 x1 tol rtol maxiter true = (match snd r with OK => Ret (fst r) | _ => Raise RuntimeError end) /\
  @newton Rops func x0 fp fp2 x1 tol rtol maxiter false = Ret (fst r) /\
  @j_newton Rops func x0 fp fp2 x1 tol rtol (Z.to_nat maxiter) = (match snd r with OK => Ret (root (fst r)) | _ => Raise RuntimeError end).
Proof. exact newton_wrap. Qed.
Print Assumptions C60_api.
Theorem C60_arguments : forall (func : R -> outcome R) x0 fp fp2 x1 (tol rtol : R) (maxiter : Z) disp, tol <= 0 \/ (maxiter < 1)%Z ->
  @newton Rops func x0 fp fp2 x1 tol rtol maxiter disp = Raise ValueError.
Proof. exact newton_args. Qed.
Print Assumptions C60_arguments.
(** 3 p - 2 from 1; p^2 - 2 runs out of iterations; 1 has no zero *)
Example C60_ex :
  let o f n := match @newton_ QI f (qq 1) None None (Some (qq 2)) (qq (1 # 1000)) (qq 0) n with
               | Ret (r, fl) => (this (root r), funcalls r, fl) | _ => (0%Q, 0%nat, DERIVATIVE_WAS_ZERO) end in
  o (fun p => Ret (sub (mul (qq 3) p) (qq 2))) 50%nat = ((2 # 3)%Q, 3%nat, OK) /\
  o (fun p => Ret (sub (mul p p) (qq 2))) 2%nat = ((7 # 5)%Q, 4%nat, NOT_CONVERGED) /\
  o (fun p => Ret (qq 1)) 50%nat = ((3 # 2)%Q, 2%nat, TOLERANCE_REACHED).
Proof. vm_compute. auto. Qed.

(** * C61  newton (Newton / Halley) contract *)
Theorem C61 : forall (func fp : R -> outcome R) (fp2 : option (R -> outcome R)) (g g1 : R -> R) (g2 : option (R -> R)),
  (forall p, func p = Ret (g p)) -> (forall p, fp p = Ret (g1 p)) ->
  match fp2, g2 with Some f, Some h => forall p, f p = Ret (h p) | None, None => True | _, _ => False end ->
  forall tol rtol x0 x1 maxiter, (0 < maxiter)%nat ->
  exists r, @newton_ Rops func x0 (Some fp) fp2 x1 tol rtol maxiter = Ret r /\ nr_end g g1 g2 tol rtol x0 maxiter r.
Proof. exact newton_nr_R. Qed.
Print Assumptions C61.
Theorem C61_affine : forall (func fp : R -> outcome R) a b (tol rtol x0 : R) x1 maxiter,
  a <> 0 -> (forall p, func p = Ret (a * p + b)) -> (forall p, fp p = Ret a) -> (1 < maxiter)%nat ->
  exists r, @newton_ Rops func x0 (Some fp) None x1 tol rtol maxiter = Ret (r, OK) /\ root r = - b / a /\ (funcalls r <= 3)%nat.
Proof. exact newton_affine. Qed.
Print Assumptions C61_affine.
(** p^2 - 2 from 1 with Newton: 17/12 after two iterations, four evaluations;
    p^2 from 0: an exact zero; p^2 - 2 from 0: zero derivative *)
Example C61_ex :
  let o f f1 x n := match @newton_ QI f x (Some f1) None None (qq (1 # 10)) (qq 0) n with
               | Ret (r, fl) => (this (root r), funcalls r, fl) | _ => (0%Q, 0%nat, TOLERANCE_REACHED) end in
  let d := fun p => Ret (mul (qq 2) p) in
  o (fun p => Ret (sub (mul p p) (qq 2))) d (qq 1) 50%nat = ((17 # 12)%Q, 4%nat, OK) /\
  o (fun p => Ret (mul p p)) d (qq 0) 50%nat = (0%Q, 1%nat, OK) /\
  o (fun p => Ret (sub (mul p p) (qq 2))) d (qq 0) 50%nat = (0%Q, 2%nat, DERIVATIVE_WAS_ZERO).
Proof. vm_compute. auto. Qed.

(** * C62  newton_hd contract *)
Theorem C62 : forall {E : @Env Rops} (func : list R -> outcome (list R)) (atol rtol : R) y0 maxiter,
  match @newton_hd Rops E func y0 atol rtol maxiter with
  | Ret y => exists k v, hd_iter func atol y0 k y /\ (k <= maxiter)%nat /\ func y = Ret v /\ norm2 v <= atol
  | Raise e => (e = RuntimeError /\ exists y, hd_iter func atol y0 (maxiter + 1) y) \/
               (exists x, func x = Raise e) \/ (exists J b, @np_solve Rops E J b = Raise e)
  | Loop => (exists x, func x = Loop) \/ (exists J b, @np_solve Rops E J b = Loop)
  end.
Proof. exact @newton_hd_R. Qed.
Print Assumptions C62.
(** affine systems: the start is accepted, or one iteration gives the exact zero *)
Theorem C62_affine : forall {E : @Env Rops} n func M b, affine_map n func M b -> solves_systems ->
  forall (atol rtol : R) y0 maxiter, length y0 = n -> 0 <= atol -> (0 < maxiter)%nat ->
  (forall v, length v = n -> exists d, @np_solve Rops E (columns n M) v = Ret d) ->
  exists y, @newton_hd Rops E func y0 atol rtol maxiter = Ret y /\ length y = n /\
    ((y = y0 /\ exists v, func y0 = Ret v /\ norm2 v <= atol) \/ func y = Ret (map (fun _ => 0) (seq 0 n))).
Proof. exact @newton_hd_affine. Qed.
Print Assumptions C62_affine.
(** Cramer's rule in dimension 2 *)
Definition cramer (cols : list (list R)) (b : list R) : outcome (list R) :=
  match cols, b with
  | [[a; c]; [b'; d]], [e; f] => if Req_EM_T (a * d - b' * c) 0 then Raise LinAlgError
      else Ret [(e * d - b' * f) / (a * d - b' * c); (a * f - e * c) / (a * d - b' * c)]
  | _, _ => Raise LinAlgError
  end.
Definition E_cramer : @Env Rops := @Build_Env Rops true cramer (@isort Rops).
Definition ex_affine (y : list R) : outcome (list R) :=
  match y with [u; v] => Ret [2 * u + v - 3; u - v] | _ => Raise ValueError end.
Example C62_ex : @solves_systems E_cramer /\ affine_map 2 ex_affine [[2; 1]; [1; -1]] [-3; 0] /\
  (forall v, length v = 2%nat -> exists d, @np_solve Rops E_cramer (columns 2 [[2; 1]; [1; -1]]) v = Ret d).
Proof.
  split; [|split].
  - intros cols b x H. change (cramer cols b = Ret x) in H. unfold cramer in H.
    destruct cols as [|[|a [|c [|? ?]]] [|[|b' [|d [|? ?]]] [|? ?]]]; try discriminate H.
    destruct b as [|e [|f [|? ?]]]; try discriminate H.
    destruct (Req_EM_T (a * d - b' * c) 0) as [z|nz]; try discriminate H. injection H as <-.
    split; auto. split; auto. intros [|[|i]] Hi; cbn in *; [field; auto|field; auto|lia].
  - split; auto. split; auto. split; [repeat constructor|].
    intros [|u [|v [|? ?]]] H; try discriminate H. cbn. unfold row_dot. cbn. f_equal. f_equal; [lra|]. f_equal. lra.
  - intros [|e [|f [|? ?]]] H; try discriminate H. cbn. destruct (Req_EM_T _ 0) as [z|nz]; [exfalso; lra|]. eauto.
Qed.

(** * C63  bisect accepts every sign change in floating point *)
(** False: the product of two tiny values rounds to zero. *)
Theorem C63_refuted : forall pw, exists (fn : @T (SFops pw) -> M unit (@T (SFops pw))) a b,
  fst (fn (@lit (SFops pw) 0) tt) = Ret a /\ fst (fn (@lit (SFops pw) 1) tt) = Ret b /\
  @ltb (SFops pw) a zero = true /\ @ltb (SFops pw) zero b = true /\
  fst (@bisect (SFops pw) unit fn (@lit (SFops pw) 0) (@lit (SFops pw) 1) (@lit (SFops pw) 0) (@lit (SFops pw) 0) 50 tt) = Raise ValueError.
Proof. exact C63_lemma. Qed.
Print Assumptions C63_refuted.

(** * C64  isclose and clip *)
Theorem C64_isclose : forall a b atol rtol : R,
  @isclose Rops a b atol rtol = true <-> Rabs (a - b) <= atol + rtol * Rabs b.
Proof. exact isclose_R. Qed.
Print Assumptions C64_isclose.
(** clip in any ordered arithmetic, binary64 included ([num x]: x is not a NaN) *)
Theorem C64_clip : forall {OT : Ops} {OL : OrdLaws OT} (x lo hi : T), num x -> leb lo hi = true ->
  leb lo (clip x lo hi) = true /\ leb (clip x lo hi) hi = true /\
  clip (clip x lo hi) lo hi = clip x lo hi /\ (leb lo x = true -> leb x hi = true -> clip x lo hi = x).
Proof. exact @clip_lemma. Qed.
Print Assumptions C64_clip.
Example C64_ex : map (fun x => this (@clip QI (qq x) (qq 1) (qq 3))) [0; 2; 7]%Q = [1; 2; 3]%Q /\
  OrdLaws (SFops (fun x _ => x)).
Proof. split; [vm_compute; reflexivity|exact _]. Qed.

(** * C65  NBKODE_NONUMBA decorators are transparent *)
(** [decorate_bare f]: @njit above f; [decorate_with args nkw f]: @njit with these positional
    arguments and nkw keyword arguments.
    The one exception is a single positional argument that is itself callable. *)
Theorem C65 : forall f : pyval, is_callable f = true ->
  decorate_bare f = Some f /\
  (forall args nkw, (forall g, args = [g] -> nkw = 0%nat -> is_callable g = false) -> decorate_with args nkw f = Some f).
Proof. exact C65_lemma. Qed.
Print Assumptions C65.
(** @njit(), @njit(cache=True, inline="always"), @jitclass(spec) *)
Example C65_ex : let f := Callable 1 in
  decorate_with [] 0 f = Some f /\ decorate_with [] 2 f = Some f /\ decorate_with [Other 5] 0 f = Some f.
Proof. auto. Qed.
