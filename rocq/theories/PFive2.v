(** Local error of a step of RungeKutta45. *)
From Coq Require Import List ZArith QArith Qreals Bool Arith Lia Reals Lra.
From Verif Require Import Base Scalar Vec MBuffer MZeros MSteps MApi MDop853 MClasses Laws Spec SpecInst PVecR SpecRK SpecMS PMS5 SpecConv PConv1 SpecConv3 PHi1 PHi2 PHi3 PVar1 PVar2
  SpecFive PFive1.
Import ListNotations.
Open Scope R_scope.

Definition tab5 (A : list (list R)) (B C : list R) : Prop :=
  rows4 1 (skipn 1 A) (skipn 1 C) /\ length B = S (length (skipn 1 A)) /\ conds5 B (ses (skipn 1 A) (skipn 1 C) [se0]).

Lemma jac_facts3 rhs n t0 te y : t0 <= te -> keeps_dim (OT := Rops) n rhs -> (forall t, t0 <= t <= te -> length (y t) = n) -> smooth_along3 rhs n t0 te y ->
  exists J J1 J2 M Bd, 0 <= Bd /\ 0 <= M /\
  (forall t i j, t0 <= t <= te -> (i < n)%nat -> (j < n)%nat -> Rabs (J i j t) <= Bd /\ Rabs (J1 i j t) <= Bd /\ Rabs (J2 i j t) <= Bd) /\
  (forall t x i j, (i < n)%nat -> (j < n)%nat -> t0 <= t -> 0 <= x -> t + x <= te -> Rabs (J i j (t + x) - J i j t - x * J1 i j t - x * x / 2 * J2 i j t) <= Bd * (x * x * x)) /\
  (forall t z f g e i, t0 <= t <= te -> near e z (y t) -> rhs t z = Ret f -> rhs t (y t) = Ret g -> (i < n)%nat ->
     Rabs (cmp i f - cmp i g - sumn n (fun j => J i j t * (cmp j z - cmp j (y t)))) <= M * (e * e)).
Proof.
  intros Hte Kd Hl (J & J1 & J2 & J3 & M & H).
  destruct (max_bound2 J t0 te n Hte) as (M0 & HM0 & B0). { intros i j c Hi Hj Hc. eapply der_cont. apply (proj1 (H c Hc) i j Hi Hj). }
  destruct (max_bound2 J1 t0 te n Hte) as (M1 & HM1 & B1). { intros i j c Hi Hj Hc. eapply der_cont. apply (proj1 (H c Hc) i j Hi Hj). }
  destruct (max_bound2 J2 t0 te n Hte) as (M2 & HM2 & B2). { intros i j c Hi Hj Hc. eapply der_cont. apply (proj1 (H c Hc) i j Hi Hj). }
  destruct (max_bound2 J3 t0 te n Hte) as (M3 & HM3 & B3). { intros i j c Hi Hj Hc. apply (proj1 (H c Hc) i j Hi Hj). }
  exists J, J1, J2, (Rmax M 0), (M0 + M1 + M2 + M3). split; [lra|]. split; [apply Rmax_r|]. split; [|split].
  - intros t i j Ht Hi Hj. specialize (B0 i j t Hi Hj Ht). specialize (B1 i j t Hi Hj Ht). specialize (B2 i j t Hi Hj Ht). lra.
  - intros t x i j Hi Hj Ht Hx Htx.
    assert (G : Rabs (J i j (t + x) - tpoly (fun q => match q with O => J i j t | S O => J1 i j t | S (S O) => J2 i j t | _ => J3 i j t end) 3 x) <= M3 * x ^ 3).
    { apply (taylor_rem 3 (fun q => match q with O => J i j | S O => J1 i j | S (S O) => J2 i j | _ => J3 i j end) t0 te M3 HM3) with (t := t) (x := x); auto.
      intros [|[|[|q]]] c Hq Hc; try (apply (proj1 (H c Hc) i j Hi Hj)). lia. }
    cbn [tpoly pow fact Nat.add Nat.mul] in G. replace (INR 1) with 1 in G by reflexivity. replace (INR 2) with 2 in G by (cbn; lra).
    replace (J i j (t + x) - J i j t - x * J1 i j t - x * x / 2 * J2 i j t) with (J i j (t + x) - (0 + J i j t * (1 / 1) + J1 i j t * (x * 1 / 1) + J2 i j t * (x * (x * 1) / 2))) by field.
    eapply Rle_trans; [exact G|]. replace (x * (x * (x * 1))) with (x * x * x) by ring. apply Rmult_le_compat_r; [repeat apply Rmult_le_pos; auto|lra].
  - intros t z f g e i Ht Hz Hf Hg Hi. destruct (H t Ht) as (_ & H2).
    assert (Lz : length z = n) by (destruct Hz as (-> & _); auto).
    eapply Rle_trans; [|apply Rle_trans with (M * (e * e)); [apply (H2 z f g e i Hz Hf Hg Hi)|]].
    + right. f_equal. f_equal. rewrite (dot_seq _ n) by (apply vsub_len; auto). apply sumn_ext. intros j Hj. rewrite (vsub_cmp n) by auto. reflexivity.
    + apply Rmult_le_compat_r; [|apply Rmax_l]. replace (e * e) with (e ^ 2) by ring. apply pow2_ge_0.
Qed.
Lemma smooth3_smooth rhs n t0 te y : smooth_along3 rhs n t0 te y -> smooth_along rhs n t0 te y.
Proof.
  intros (J & J1 & J2 & J3 & M & H). exists J, J1, J2, M. intros t Ht. destruct (H t Ht) as (H1 & H2). split; auto.
  intros i j Hi Hj. destruct (H1 i j Hi Hj) as (Q1 & Q2 & Q3 & _). split; auto. split; auto. eapply der_cont; eauto.
Qed.

Lemma rk_step_five rhs n L t0 te y A B C : lipschitz n L rhs -> t0 <= te -> Ck_solution 6 rhs n t0 te y -> smooth_along3 rhs n t0 te y ->
  tab5 A B C ->
  exists Ca, 0 <= Ca /\ forall h e t u f K u', 0 < h <= 1 -> 0 <= e -> t0 <= t -> t + h <= te ->
    near e u (y t) -> rhs t u = Ret f -> rk_step (OT := Rops) rhs A B C t u f h K u' ->
    near ((1 + h * Ca) * e + Ca * (h * h ^ 5)) u' (y (t + h)).
Proof.
  intros HL Hte HC HJ (Hr & LB & Hco).
  destruct (taylor_facts 6 rhs n t0 te y ltac:(lia) Hte HC) as (D & B1 & HB1 & D0 & DR & Dl & Db & Dt).
  assert (Hl : forall t, t0 <= t <= te -> length (y t) = n) by (intros t Ht; rewrite <- D0; apply Dl; auto; lia).
  destruct (jac_facts3 rhs n t0 te y Hte (proj1 (proj2 HL)) Hl HJ) as (J & J1 & J2 & M & B2 & HB2 & HM & Jb & Jt & Jl).
  set (Bd := B1 + B2). assert (HBd : 0 <= Bd) by (unfold Bd; lra).
  set (ok := fun w : stepdata => (0 < x_h w <= 1 /\ 0 <= x_e w /\ t0 <= x_t w /\ x_t w + x_h w <= te /\ near (x_e w) (x_u w) (y (x_t w)) /\
     rhs (x_t w) (x_u w) = Ret (x_f w)) /\ rk_step (OT := Rops) rhs A B C (x_t w) (x_u w) (x_f w) (x_h w) (x_K w) (x_v w)).
  assert (K1 : forall w, ok w -> 0 < x_h w <= 1) by (intros w Hw; apply Hw).
  assert (K2 : forall w, ok w -> 0 <= x_e w) by (intros w Hw; apply Hw).
  assert (K3 : forall w, ok w -> t0 <= x_t w /\ x_t w + x_h w <= te) by (intros w ((? & ? & ? & ? & _) & _); auto).
  assert (K4 : forall w, ok w -> near (x_e w) (x_u w) (D 0%nat (x_t w))) by (intros w Hw; rewrite D0; apply Hw).
  assert (Db' : forall t j i, t0 <= t <= te -> (j <= 6)%nat -> (i < n)%nat -> Rabs (cmp i (D j t)) <= Bd).
  { intros t j i Ht Hj Hi. specialize (Db t j i Ht Hj Hi). unfold Bd. lra. }
  assert (Dt' : forall j k t x i, (j + k <= 6)%nat -> (i < n)%nat -> t0 <= t -> 0 <= x -> t + x <= te ->
    Rabs (cmp i (D j (t + x)) - tpoly (fun m => cmp i (D (j + m)%nat t)) k x) <= Bd * x ^ k).
  { intros j k t x i H1 H2 H3 H4 H5. eapply Rle_trans; [apply Dt; auto|]. apply Rmult_le_compat_r; [apply pow_le; auto|unfold Bd; lra]. }
  assert (Jb' : forall t i j, t0 <= t <= te -> (i < n)%nat -> (j < n)%nat -> Rabs (J i j t) <= Bd /\ Rabs (J1 i j t) <= Bd /\ Rabs (J2 i j t) <= Bd).
  { intros t i j Ht Hi Hj. specialize (Jb t i j Ht Hi Hj). unfold Bd. lra. }
  assert (Jt' : forall t x i j, (i < n)%nat -> (j < n)%nat -> t0 <= t -> 0 <= x -> t + x <= te ->
    Rabs (J i j (t + x) - J i j t - x * J1 i j t - x * x / 2 * J2 i j t) <= Bd * (x * x * x)).
  { intros t x i j Hi Hj H3 H4 H5. eapply Rle_trans; [apply Jt; auto|]. apply Rmult_le_compat_r; [repeat apply Rmult_le_pos; auto|unfold Bd; lra]. }
  assert (Jl' : forall t z f e i, t0 <= t <= te -> near e z (D 0%nat t) -> rhs t z = Ret f -> (i < n)%nat ->
    Rabs (cmp i f - cmp i (D 1%nat t) - sumn n (fun j => J i j t * (cmp j z - cmp j (D 0%nat t)))) <= M * (e * e)).
  { intros t z f e i Ht Hz Hf Hi. rewrite D0. apply (Jl t z f (D 1%nat t)); auto; [rewrite <- D0; exact Hz|rewrite <- D0; auto]. }
  pose proof (stage_first5 rhs n L t0 te Bd D J J1 J2 M HL HBd HM Dl DR Db' Dt' Jb' Jt' Jl' ok x_h x_e x_t x_u K1 K2 K3 K4 x_f ltac:(intros w Hw; apply Hw)) as S1.
  pose proof (stages5 rhs n L t0 te Bd D J J1 J2 M HL HBd HM Dl DR Db' Dt' Jb' Jt' Jl' ok x_h x_e x_t x_u K1 K2 K3 K4 (skipn 1 A) (skipn 1 C) 1 [se0] (fun w => [x_f w]) x_K Hr S1
    ltac:(intros w Hw; apply Hw)) as S2.
  assert (Comb : forall w b, ok w -> (b < n)%nat -> cmp b (x_v w) = cmp b (x_u w) + x_h w * dot B (map (fun k => cmp b k) (x_K w))).
  { intros w b Hw Hb. pose proof Hw as (Hw1 & _ & Hv).
    assert (Lu : length (x_u w) = n).
    { destruct Hw1 as (_ & _ & H1 & H2 & (H3 & _) & _). rewrite H3. apply Hl. pose proof (K1 w Hw). lra. }
    assert (Kd : Forall (fun k => length k = n) (x_K w)) by (apply S2; exact Hw).
    rewrite Hv. unfold rk_combine. replace (@length (@T Rops) (x_u w)) with n by exact (eq_sym Lu). rewrite (vadd_cmp n) by (auto; apply lincomb_len; auto).
    rewrite lincomb_cmp by auto. apply (f_equal (Rplus (cmp b (x_u w)))). apply dot_scale. }
  pose proof (step5 n t0 te Bd D J J1 J2 HBd Dt' ok x_h x_e x_t x_u K1 K2 K3 _ B _ x_K x_v Hco S2 LB Comb) as S3.
  destruct (big_all ok x_h x_e K1 K2 5 n _ S3) as (Ca & HCa & HH).
  exists Ca. split; auto. intros h e t u f K u' Hh He Ht Hte' Hu Hf Hs.
  set (w := mkstep h e t u f K u'). assert (Hw : ok w) by (split; [repeat split; try tauto; try apply Hu; auto|exact Hs]).
  destruct (Hu) as (Hu1 & Hu2). assert (Ln : length u = n) by (rewrite Hu1; apply Hl; lra).
  assert (Lv : length u' = n).
  { destruct Hs as (_ & ->). unfold rk_combine. apply vadd_len; auto. replace (@length (@T Rops) u) with n by exact (eq_sym Ln). apply lincomb_len. apply (proj1 (proj2 S2) w Hw). }
  split; [exact (eq_trans Lv (eq_sym (Hl (t + h) ltac:(lra))))|]. intros i Hi. change (@length R u') with (@length (@T Rops) u') in Hi. pose proof (eq_ind _ (fun q => (i < q)%nat) Hi _ Lv) as Hi'. clear Hi. rename Hi' into Hi. specialize (HH i w Hi Hw). cbn [x_h x_e x_t x_u x_v w] in HH.
  rewrite !D0 in HH. specialize (Hu2 i). rewrite Ln in Hu2. specialize (Hu2 Hi).
  set (X := cmp i u' - cmp i (y (t + h))) in *. set (Y := cmp i u - cmp i (y t)) in *.
  change (Rabs X <= (1 + h * Ca) * e + Ca * (h * h ^ 5)). change (Rabs ((X - Y) / h) <= Ca * (e + h ^ 5)) in HH. clearbody X Y.
  replace X with (Y + h * ((X - Y) / h)) by (field; lra).
  eapply Rle_trans; [apply Rabs_triang|]. rewrite Rabs_mult, (Rabs_right h) by lra.
  assert (h * Rabs ((X - Y) / h) <= h * (Ca * (e + h ^ 5))) by (apply Rmult_le_compat_l; lra). lra.
Qed.

(** ** the tableau of RungeKutta45, by computation with rationals *)
Record seq_ := mkseq { q_c : Q; q_al : Q; q_be : Q; q_ga : Q; q_de : Q; q_ep : Q; q_ze : Q; q_et : Q }.
Definition seR (s : seq_) : se := mkse (Q2R (q_c s)) (Q2R (q_al s)) (Q2R (q_be s)) (Q2R (q_ga s)) (Q2R (q_de s)) (Q2R (q_ep s)) (Q2R (q_ze s)) (Q2R (q_et s)).
Definition p2q (s : seq_) : Q := Qred (q_c s * q_c s * (1 # 2)).
Definition p3q (s : seq_) : Q := Qred (q_c s * q_c s * q_c s * (1 # 6)).
Definition p4q (s : seq_) : Q := Qred (q_c s * q_c s * q_c s * q_c s * (1 # 24)).
Definition calq (s : seq_) : Q := Qred (q_c s * q_al s).
Definition ccalq (s : seq_) : Q := Qred (q_c s * q_c s * (1 # 2) * q_al s).
Definition cbeq (s : seq_) : Q := Qred (q_c s * q_be s).
Definition cgaq (s : seq_) : Q := Qred (q_c s * q_ga s).
Definition next_seq (a : list Q) (c : Q) (S : list seq_) : seq_ :=
  mkseq c (Qred (dotq a (map q_c S) - c * c * (1 # 2))) (Qred (dotq a (map p2q S) - c * c * c * (1 # 6))) (dotq a (map q_al S))
    (Qred (dotq a (map p3q S) - c * c * c * c * (1 # 24))) (dotq a (map q_be S)) (dotq a (map calq S)) (dotq a (map q_ga S)).
Fixpoint sesq (rows : list (list Q)) (cs : list Q) (S : list seq_) : list seq_ :=
  match rows, cs with
  | a :: rows', c :: cs' => sesq rows' cs' (S ++ [next_seq (firstn (length S) a) c S])
  | _, _ => S
  end.
Definition seq0 : seq_ := mkseq 0 0 0 0 0 0 0 0.
Definition conds5q (B : list Q) (S : list seq_) : bool :=
  forallb (fun j => Qeq_bool (nth j B 0%Q) 0 || Qeq_bool (q_al (nth j S seq0)) 0) (seq 0 (length B)) &&
  Qeq_bool (sumq B) 1 && Qeq_bool (dotq B (map q_c S)) (1 # 2) && Qeq_bool (dotq B (map p2q S)) (1 # 6) && Qeq_bool (dotq B (map q_al S)) 0 &&
  Qeq_bool (dotq B (map p3q S)) (1 # 24) && Qeq_bool (dotq B (map calq S)) 0 && Qeq_bool (dotq B (map q_be S)) 0 && Qeq_bool (dotq B (map q_ga S)) 0 &&
  Qeq_bool (dotq B (map p4q S)) (1 # 120) && Qeq_bool (dotq B (map ccalq S)) 0 && Qeq_bool (dotq B (map cbeq S)) 0 && Qeq_bool (dotq B (map cgaq S)) 0 &&
  Qeq_bool (dotq B (map q_de S)) 0 && Qeq_bool (dotq B (map q_ep S)) 0 && Qeq_bool (dotq B (map q_ze S)) 0 && Qeq_bool (dotq B (map q_et S)) 0.
Definition tab5q (A : list (list Q)) (B C : list Q) : bool :=
  rows4q 1 (skipn 1 A) (skipn 1 C) && Nat.eqb (length B) (S (length (skipn 1 A))) && conds5q B (sesq (skipn 1 A) (skipn 1 C) [seq0]).

Lemma dotq_se (F : se -> R) (G : seq_ -> Q) a S : (forall s, F (seR s) = Q2R (G s)) -> dot (map Q2R a) (map F (map seR S)) = Q2R (dotq a (map G S)).
Proof. intros H. rewrite <- dotq_R. f_equal. rewrite !map_map. apply map_ext. exact H. Qed.
Ltac qr := intros [c ? ? ? ? ? ? ?]; unfold p2q, p3q, p4q, calq, ccalq, cbeq, cgaq, pw2, pw3, pw4, cal, ccal, cbe, cga; cbn [seR e_c e_al e_be e_ga q_c q_al q_be q_ga];
  rewrite ?Q2R_red, ?Q2R_mult, ?Q2R_num; lra.
Lemma p2_R : forall s, pw2 (seR s) = Q2R (p2q s). Proof. qr. Qed.
Lemma p3_R : forall s, pw3 (seR s) = Q2R (p3q s). Proof. qr. Qed.
Lemma p4_R : forall s, pw4 (seR s) = Q2R (p4q s). Proof. qr. Qed.
Lemma cal_R : forall s, cal (seR s) = Q2R (calq s). Proof. qr. Qed.
Lemma ccal_R : forall s, ccal (seR s) = Q2R (ccalq s). Proof. qr. Qed.
Lemma cbe_R : forall s, cbe (seR s) = Q2R (cbeq s). Proof. qr. Qed.
Lemma cga_R : forall s, cga (seR s) = Q2R (cgaq s). Proof. qr. Qed.
Lemma next_seq_R a c S : next_se (map Q2R a) (Q2R c) (map seR S) = seR (next_seq a c S).
Proof.
  unfold next_se, next_seq, seR. cbn [q_c q_al q_be q_ga q_de q_ep q_ze q_et]. fold seR.
  f_equal; rewrite ?Q2R_red, ?Q2R_minus, ?Q2R_mult, ?Q2R_num;
    try (apply dotq_se; first [reflexivity|exact cal_R]).
  - rewrite (dotq_se e_c q_c) by reflexivity. lra.
  - rewrite (dotq_se pw2 p2q) by exact p2_R. lra.
  - rewrite (dotq_se pw3 p3q) by exact p3_R. lra.
Qed.
Lemma sesq_R rows : forall cs S, ses (map (map Q2R) rows) (map Q2R cs) (map seR S) = map seR (sesq rows cs S).
Proof.
  induction rows as [|a rows IH]; intros [|c cs] S; cbn [map ses sesq]; try reflexivity.
  rewrite <- IH. f_equal. rewrite map_length, map_app, firstn_map, next_seq_R. reflexivity.
Qed.
Lemma seR_0 : seR seq0 = se0.
Proof. unfold seR, seq0, se0. cbn. rewrite !Q2R_0. reflexivity. Qed.
Lemma tab5q_R A B C : tab5q A B C = true -> tab5 (map (map Q2R) A) (map Q2R B) (map Q2R C).
Proof.
  unfold tab5q, tab5, conds5q. intros H. apply andb_prop in H as (H & Hc). apply andb_prop in H as (H & Hl).
  repeat (apply andb_prop in Hc; destruct Hc as (Hc & ?)).
  rewrite !skipn_map, <- seR_0. change [seR seq0] with (map seR [seq0]). rewrite sesq_R.
  split; [now apply rows4q_R|]. split; [rewrite !map_length; now apply Nat.eqb_eq|].
  set (S := sesq (skipn 1 A) (skipn 1 C) [seq0]) in *.
  repeat match goal with H : Qeq_bool _ _ = true |- _ => apply Qeq_bool_eq, Qeq_eqR in H end.
  split.
  - rewrite map_length. intros j Hj. rewrite forallb_forall in Hc. specialize (Hc j ltac:(apply in_seq; lia)). apply orb_prop in Hc as [Hc|Hc];
      apply Qeq_bool_eq, Qeq_eqR in Hc; rewrite Q2R_0 in Hc.
    + left. rewrite <- Q2R_0, map_nth, Hc. symmetry. apply Q2R_0.
    + right. rewrite <- seR_0, map_nth. exact Hc.
  - rewrite sumq_R, (dotq_se e_c q_c), (dotq_se e_al q_al), (dotq_se e_be q_be), (dotq_se e_ga q_ga), (dotq_se e_de q_de), (dotq_se e_ep q_ep), (dotq_se e_ze q_ze), (dotq_se e_et q_et),
      (dotq_se pw2 p2q), (dotq_se pw3 p3q), (dotq_se pw4 p4q), (dotq_se cal calq), (dotq_se ccal ccalq), (dotq_se cbe cbeq), (dotq_se cga cgaq)
      by first [reflexivity|exact p2_R|exact p3_R|exact p4_R|exact cal_R|exact ccal_R|exact cbe_R|exact cga_R].
    rewrite ?Q2R_0, ?Q2R_1, ?Q2R_num in *. repeat split; assumption.
Qed.
Lemma tab5_rk45 : match @RungeKutta45 Rops with Fsal A B C _ _ P => tab5 A B C | _ => False end.
Proof. cbv beta iota delta [RungeKutta45]. rewrite !litm_Q, !lits_Q. apply tab5q_R. vm_compute. reflexivity. Qed.
