(** Model of the Runge-Kutta families the package does not import:
    nbkode/runge_kutta/implicit.py, linearly_implicit.py, diagonally_implicit.py,
    the abstract class Fehlberg45 of explicit.py, and the class properties of
    runge_kutta/core.py.
    implicit.py and linearly_implicit.py begin with an import from a module that
    does not exist (..order), so no solver can be built from them; modelled are
    their step functions and coefficients. *)
From Coq Require Import List ZArith QArith Bool Arith.
From Verif Require Import Base Scalar Vec MBuffer MZeros MClasses.
Import ListNotations.
Local Open Scope sc_scope.

Section Implicit.
Context {OT : Ops} {E : Env}.

(** ** Fully implicit Runge-Kutta (implicit.py) *)

(** implicit.py:31-36 implicit_K: row i is k_i - rhs(t + h c_i, y + (h a_i) @ K) *)
Definition implicit_K (A : list (list T)) (C : list T) (rhs : rhs_t) (t : T) (y : vec) (h : T) (K : list vec) : outcome (list vec) :=
  omapM (fun row => let '(a, c, k) := row in
           let! f := rhs (t + h * c) (vadd y (lincomb (length y) (map (mul h) a) K)) in
           Ret (vsub k f))
        (combine (combine A C) K).

(** implicit.py:38-46 FIRK._fixed_step.  [root_solver f K0] stands for
    newton_hd(f, K0), applied to the two-dimensional array of the stages. *)
Definition firk_fixed_step (root_solver : (list vec -> outcome (list vec)) -> list vec -> outcome (list vec))
    (A : list (list T)) (B C : list T) (rhs : rhs_t) (t : T) (y : vec) (h : T) (K : list vec) : outcome (T * vec) :=
  let! K' := root_solver (implicit_K A C rhs t y h) K in
  Ret (t + h, vadd y (lincomb (length y) (map (mul h) B) K')).

(** implicit.py:60-67 RadauIA3 *)
Definition RadauIA3_A : list (list T) := map (map (fun x => x / lit 4)) [[lit 1; lit (-1)]; [lit 1; lit 5 / lit 3]].
Definition RadauIA3_B : list T := over [1; 3]%Z 4.
Definition RadauIA3_C : list T := [lit 0; lit 2 / lit 3].
(** implicit.py:80-87 RadauIIA3 *)
Definition RadauIIA3_A : list (list T) := [over [5; -1]%Z 12; over [9; 3]%Z 12].
Definition RadauIIA3_B : list T := over [3; 1]%Z 4.
Definition RadauIIA3_C : list T := over [1; 3]%Z 3.
(** implicit.py:90-111 RadauIIA; [s6] = np.sqrt(6) *)
Definition s6 : T := sqrtT (lit 6).
Definition RadauIIA_A : list (list T) :=
  [ [ (lit 88 - lit 7 * s6) / lit 360; (lit 296 - lit 169 * s6) / lit 1800; (lit (-2) + lit 3 * s6) / lit 225 ];
    [ (lit 296 + lit 169 * s6) / lit 1800; (lit 88 + lit 7 * s6) / lit 360; (lit (-2) - lit 3 * s6) / lit 225 ];
    [ (lit 16 - lit 1 * s6) / lit 36; (lit 16 + lit 1 * s6) / lit 36; lit 1 / lit 9 ] ].
Definition RadauIIA_C : list T := [ (lit 4 - s6) / lit 10; (lit 4 + s6) / lit 10; lit 1 ].
Definition RadauIIA_B : list T := [ (lit 16 - s6) / lit 36; (lit 16 + s6) / lit 36; lit 1 / lit 9 ].

(** ** Linearly implicit Runge-Kutta (linearly_implicit.py) *)

(** linearly_implicit.py:9-19 jacobian.  Rows of out_y: out_y[i] is the central
    difference in direction i.  x1[i] -= eps, x2[i] += eps. *)
Definition li_jacobian (rhs : rhs_t) (t : T) (y : vec) (eps : T) : outcome (vec * list vec) :=
  let! fp := rhs (t + eps) y in
  let! fm := rhs (t - eps) y in
  let out_t := map (fun d => d / (two * eps)) (vsub fp fm) in
  let! rows := omapM (fun i =>
      let! f2 := rhs t (list_set y i (nth i y zero + eps)) in
      let! f1 := rhs t (list_set y i (nth i y zero - eps)) in
      Ret (map (fun d => d / (two * eps)) (vsub f2 f1)))
    (seq 0 (length y)) in
  Ret (out_t, rows).
(** its default eps=1e-10 *)
Definition li_eps : T := lit (1 # 10000000000).

(** matrices are lists of rows *)
Definition eye (n : nat) : list vec := map (fun i => list_set (vzero n) i one) (seq 0 n).
Definition transpose (n : nat) (rows : list vec) : list vec := map (fun j => map (fun r => nth j r zero) rows) (seq 0 n).
Definition entry (M : list vec) (i j : nat) : T := nth j (nth i M []) zero.
(** row vector times matrix, matrix times matrix *)
Definition vecmat (v : vec) (M : list vec) : vec := lincomb (length (nth 0 M [])) v M.
Definition matmat (A M : list vec) : list vec := map (fun a => vecmat a M) A.
(** np.tril(M, k=-1).sum(1), np.tril(M).sum(1) *)
Definition tril_sums (strict : bool) (M : list vec) : vec :=
  map (fun p => vsum (firstn (if strict then fst p else S (fst p)) (snd p))) (combine (seq 0 (length M)) M).

(** the coefficients of a class: Alpha, Gamma, B (linearly_implicit.py:28-31) *)
Record lirk : Type := mklirk { l_alpha : list vec; l_gamma : list vec; l_B : vec }.
(** linearly_implicit.py:33-61; [inv] stands for np.linalg.inv *)
Definition l_Alphai (c : lirk) : vec := tril_sums true (l_alpha c).
Definition l_Gammai (c : lirk) : vec := tril_sums false (l_gamma c).
Definition l_A (inv : list vec -> list vec) (c : lirk) : list vec := matmat (l_alpha c) (inv (l_gamma c)).
Definition l_M (inv : list vec -> list vec) (c : lirk) : vec := vecmat (l_B c) (inv (l_gamma c)).
(** np.diag(1 / np.diag(Gamma)) - inv(Gamma): dividing the other entries does not
    happen, they are 0 *)
Definition l_C (inv : list vec -> list vec) (c : lirk) : list vec :=
  map (fun i => vsub (list_set (vzero (length (l_gamma c))) i (one / entry (l_gamma c) i i)) (nth i (inv (l_gamma c)) []))
      (seq 0 (length (l_gamma c))).

(** linearly_implicit.py:81-85 and 111-115: the stage loop; [lhs i] is the matrix
    of the linear system of stage i (rows), [U] the stages so far *)
Fixpoint li_stages (lhs : nat -> list vec) (A C : list vec) (rhs : rhs_t) (t : T) (y ft : vec) (h : T)
    (i : nat) (nodes : list (T * T)) (U : list vec) : outcome (list vec) :=
  match nodes with
  | [] => Ret U
  | (alphai, gammai) :: nodes' =>
      let n := length y in
      let du := lincomb n (firstn i (nth i A [])) (firstn i U) in
      let duj := lincomb n (firstn i (nth i C [])) (firstn i U) in
      let! f := rhs (t + h * alphai) (vadd y du) in
      let b := vadd (vadd f (map (fun d => d / h) duj)) (vscale (gammai * h) ft) in
      let! u := np_solve (transpose n (lhs i)) b in
      li_stages lhs A C rhs t y ft h (i + 1) nodes' (U ++ [u])
  end.
(** eye / h / g - J *)
Definition li_matrix (n : nat) (h g : T) (J : list vec) : list vec :=
  map2 vsub (map (map (fun x => x / h / g)) (eye n)) J.
(** linearly_implicit.py:67-91 LIRK._fixed_step *)
Definition lirk_fixed_step (inv : list vec -> list vec) (c : lirk) (rhs : rhs_t) (t : T) (y : vec) (h : T) : outcome (T * vec) :=
  let! tJ := li_jacobian rhs t y li_eps in
  let '(ft, J) := tJ in
  let! U := li_stages (fun i => li_matrix (length y) h (entry (l_gamma c) i i) J) (l_A inv c) (l_C inv c)
              rhs t y ft h 0 (combine (l_Alphai c) (l_Gammai c)) [] in
  Ret (t + h, vadd y (lincomb (length y) (l_M inv c) U)).
(** linearly_implicit.py:94-121 SLIRK._fixed_step, one matrix for all stages *)
Definition slirk_fixed_step (inv : list vec -> list vec) (gamma : T) (c : lirk) (rhs : rhs_t) (t : T) (y : vec) (h : T) : outcome (T * vec) :=
  let! tJ := li_jacobian rhs t y li_eps in
  let '(ft, J) := tJ in
  let! U := li_stages (fun _ => li_matrix (length y) h gamma J) (l_A inv c) (l_C inv c)
              rhs t y ft h 0 (combine (l_Alphai c) (l_Gammai c)) [] in
  Ret (t + h, vadd y (lincomb (length y) (l_M inv c) U)).

(** linearly_implicit.py:124-136 ROS3P *)
Definition ROS3P_gamma : T := (lit 3 + sqrtT (lit 3)) / lit 6.
Definition ROS3P : lirk :=
  let g := ROS3P_gamma in
  mklirk (litm [[0; 0; 0]; [1; 0; 0]; [1; 0; 0]]%Q)
         [ [g; lit 0; lit 0]; [lit (-1); g; lit 0]; [- g; lit 1 / lit 2 - lit 2 * g; g] ]
         (over [2; 0; 1]%Z 3).
(** linearly_implicit.py:139-141 AdaptiveROS3P.B2 *)
Definition ROS3P_B2 : vec := over [1; 1; 1]%Z 3.

(** ** Fehlberg45 (explicit.py:256-279) *)
Definition Fehlberg45_A : list (list T) := litm
  [[0; 0; 0; 0; 0; 0]; [1 # 4; 0; 0; 0; 0; 0]; [3 # 32; 9 # 32; 0; 0; 0; 0];
   [1932 # 2197; -7200 # 2197; 7296 # 2197; 0; 0; 0];
   [439 # 216; -8 # 1; 3680 # 513; -845 # 4104; 0; 0];
   [-8 # 27; 2; -3544 # 2565; 1859 # 4104; -11 # 40; 0]]%Q.
Definition Fehlberg45_B : list T := lits [25 # 216; 0; 1408 # 2565; 2197 # 4104; -1 # 5; 0]%Q.
Definition Fehlberg45_C : list T := lits [0; 1 # 4; 3 # 8; 12 # 13; 1; 1 # 2]%Q.
Definition Fehlberg45_B2 : list T := lits [16 # 135; 0; 6656 # 12825; 28561 # 56430; -9 # 50; 2 # 55]%Q.

(** ** class properties *)
(** runge_kutta/core.py:51-53 consistent: np.isclose(np.sum(B), 1) with numpy's
    tolerances rtol=1e-5, atol=1e-8 *)
Definition consistent (B : list T) : bool :=
  isclose (vsum B) one (lit (1 # 100000000)) (lit (1 # 100000)).
(** implicit.py:17-19 FIRK.implicit: np.any(np.triu(A) != 0) *)
Definition firk_implicit (A : list (list T)) : bool :=
  existsb (fun p => existsb (fun x => negb (x =? zero)) (skipn (fst p) (snd p))) (combine (seq 0 (length A)) A).
(** diagonally_implicit.py:21-23: np.all(np.triu(A, k=1) == 0) *)
Definition diagonally_implicit (A : list (list T)) : bool :=
  forallb (fun p => forallb (fun x => x =? zero) (skipn (S (fst p)) (snd p))) (combine (seq 0 (length A)) A).
(** diagonally_implicit.py:33-35: np.unique(np.diag(A)).size == 1 (no NaN) *)
Definition singly_diagonally_implicit (A : list (list T)) : bool :=
  match map (fun p => nth (fst p) (snd p) zero) (combine (seq 0 (length A)) A) with
  | [] => false
  | d :: ds => forallb (fun x => x =? d) ds
  end.
End Implicit.
