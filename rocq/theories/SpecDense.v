(** The dense output formulas of the variable step classes, over the reals, and
    the last step of an instance. *)
From Coq Require Import List ZArith Bool Arith Reals.
From Verif Require Import Base Scalar Vec MBuffer MZeros MSteps MApi MClasses Laws Spec SpecInst SpecRK PVecR.
Import ListNotations.

Section G.
Context {OT : Ops}.
(** the row before the current one *)
Definition prev_t (s : st) : T := buf_tp (cache s).
Definition prev_y (s : st) : vec := buf_yp (cache s).
Definition prev_f (s : st) : vec := nth (length (fs (cache s)) - 2) (fs (cache s)) [].
(** [K] are the stages, [h] the length, of the step from the previous row to the
    current one *)
Definition last_step (rhs : rhs_t) (A : list (list T)) (B C : list T) (s : st) (h : T) (K : list vec) : Prop :=
  rk_step rhs A B C (prev_t s) (prev_y s) (prev_f s) h K (state s) /\ now s = add (prev_t s) h.
End G.

Open Scope R_scope.
(** sum_{k<n} f k *)
Definition Rsum (f : nat -> R) (n : nat) : R := fold_right Rplus 0 (map f (seq 0 n)).

(** RkDenseOutput: y_old + h sum_j x^(j+1) sum_k K_k P_kj, x = (t - t_old) / h *)
Definition rk_dense (P : list (list R)) (tp : R) (yp : list R) (h : R) (K : list (list R)) (t : R) : list R :=
  map (fun i => cmp i yp +
         h * Rsum (fun j => ((t - tp) / h) ^ (S j) *
                            Rsum (fun k => nth j (nth k P []) 0 * cmp i (nth k K [])) (length K))
                  (length (hd [] P)))
      (seq 0 (length yp)).

(** (f0 + (f1 + (f2 + ...) a2) a1) a0 with factors x and 1 - x alternating, the
    innermost being x *)
Fixpoint alt (x : R) (l : list R) : R :=
  match l with
  | [] => 0
  | f :: r => (f + alt x r) * (if Nat.even (length r) then x else 1 - x)
  end.
(** the coefficients of Dop853DenseOutput, component i; [K] are all 16 stages *)
Definition dop_coeffs (D : list (list R)) (yp y f : list R) (h : R) (K : list (list R)) (i : nat) : list R :=
  let d := cmp i y - cmp i yp in
  let fp := cmp i (nth 0 K []) in
  [d; h * fp - d; 2 * d - h * (cmp i f + fp)] ++
  map (fun row => h * Rsum (fun k => nth k row 0 * cmp i (nth k K [])) (length K)) D.
Definition dop_dense (D : list (list R)) (tp : R) (yp y f : list R) (h : R) (K : list (list R)) (t : R) : list R :=
  map (fun i => cmp i yp + alt ((t - tp) / h) (dop_coeffs D yp y f h K i)) (seq 0 (length yp)).

(** [g] is continuously differentiable dense output of the last step of [s]: it
    starts at the previous recorded row and ends at the last one, values and
    slopes *)
Definition joins (s : @st Rops) (g : R -> list R) : Prop :=
  g (prev_t s) = prev_y s /\ g (now s) = state s /\
  forall i, (i < length (state s))%nat ->
    derivable_pt_lim (fun t => cmp i (g t)) (prev_t s) (cmp i (prev_f s)) /\
    derivable_pt_lim (fun t => cmp i (g t)) (now s) (cmp i (deriv s)) /\
    forall t, exists d, derivable_pt_lim (fun t => cmp i (g t)) t d.
