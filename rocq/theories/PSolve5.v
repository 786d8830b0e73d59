(** C86 with the default first stepper. *)
From Coq Require Import List ZArith QArith Bool Arith Lia Reals Lra Classical.
From Verif Require Import Base Scalar Vec MBuffer MZeros MSteps MApi MClasses Laws Spec SpecInst
  PStep PKeeps PCore PHist PBound PVecR SpecRK PRK PDim PRun PRun2 PRun3 PFwd PTerm SpecMS PMS PMS2 SpecDense PDense PC2 PTop2 SpecOrder SpecConv SpecConv2 SpecConv3 SpecLmm SpecLive
  PConv1 PConv2 PConv6 PConv7 SpecCtl SpecVar SpecVL PConv9 PVar3 PVL3 PVL4 PVL5 SpecSolve PSolve1 PSolve2 PSolve3 PSolve4.
Import ListNotations.
Open Scope R_scope.

Section D.
Context {E : @Env Rops}.
Variables (rhs : @rhs_t Rops) (n : nat) (L : R).
Hypothesis HL : lipschitz n L rhs.
Hypothesis Hd : defined_on n rhs.
Let Hk : keeps_dim (OT := Rops) n rhs := proj1 (proj2 HL).

Lemma head_sorted (a : R) (l : list R) : is_sorted (OT := Rops) l = true -> (forall x, In x l -> a <= x) -> is_sorted (OT := Rops) (a :: l) = true.
Proof.
  intros H Ha. destruct l as [|x l]; [reflexivity|]. apply andb_true_iff. split; [|exact H]. apply Rleb_true. apply Ha. now left.
Qed.
Lemma push_rows_neat k b : forall (rows : list (R * list R)) c, neat n (S (S k)) c -> is_sorted (OT := Rops) (buf_t c :: map fst rows) = true ->
  Forall (fun r => length (snd r) = n) rows -> (forall x, In x (map fst rows) -> x <= b) -> buf_t c <= b ->
  exists c', fs_push_all (OT := Rops) rhs rows c = Ret c' /\ neat n (S (S k)) c' /\ buf_t c' <= b.
Proof.
  induction rows as [|[t v] rows IH]; intros c Nc So Fl Hb Hc; [exists c; auto|].
  apply Forall_cons_iff in Fl as (Lv & Fl). cbn [snd] in Lv. destruct (Hd t v Lv) as (f & Hf). cbn [fs_push_all]. rewrite Hf. cbn [obind].
  cbn [map fst] in So. apply (andb_prop) in So as (S1 & S2). apply Rleb_true in S1.
  assert (Et : buf_t (push c t v f) = t) by (apply (push_t (S k)), Nc).
  apply IH; auto.
  - apply neat_push; auto. eapply Hk; eauto.
  - rewrite Et. exact S2.
  - intros x Hx. apply Hb. now right.
  - rewrite Et. apply Hb. now left.
Qed.

Variables (te : R) (y : R -> list R).
Hypothesis Hte : 0 <= te.
Hypothesis HC : C2_solution rhs n 0 te y.

Section F.
Variables (A : list (list R)) (B C Ew : list R) (order : Z) (P : list (list R)) (o : @options Rops).
Let m1 : @meth Rops := @Fsal Rops A B C Ew order P.
Hypothesis Hsh : length C = length A /\ A <> [].
Hypothesis Ho : sane o.
Hypothesis Hmin : 0 < min_factor o.
Hypothesis Hmax : 0 < max_factor o.
Hypothesis Hor : (0 <= order)%Z.
Hypothesis Hp : In m1 pairs.
Hypothesis Hto : tolerances o.
Hypothesis Hsr : shrinking o.
Variable M : R.

Lemma first_run H0 q : (1 <= n)%nat -> 0 < H0 -> bounded_at_zero n M 0 (@Fin Rops H0) rhs -> (0 < q)%nat ->
  exists N hmax, 0 < hmax /\ forall h g1 sel s1 fuel1, 0 < h <= hmax -> garbage_ok m1 g1 -> init_var m1 g1 rhs 0 (y 0) o sel None = Ret s1 -> hstep s1 = H0 -> (N <= fuel1)%nat ->
    exists N0 rows s2, (forall fuel, (N0 <= fuel)%nat ->
      run (E := E) (solver_of (E := E) m1 fuel1 o rhs PInf) fuel (map (fun i => @mul Rops (@ofnat Rops i) h) (seq 1 q)) s1 = (Ret rows, s2)) /\
      map fst rows = map (fun i => @mul Rops (@ofnat Rops i) h) (seq 1 q) /\ Forall (fun r => length (snd r) = n) rows.
Proof.
  intros Hn HH HM Hq. pose proof (C2_dim _ _ _ _ _ HC Hte) as Ly.
  destruct (C2_sol_ok rhs n 0 te y Hte Hk HC) as (dy & M' & HS & HD).
  destruct (live_all (E := E) rhs n L M 0 0 (@Fin Rops H0) m1 o (y 0) H0 HL Hd HM (Rle_refl 0) Hn Hp Hto Hsr Ly HH) as (fl & N & I & Hfl & H).
  assert (PQ : 0 < INR (S q)) by (apply lt_0_INR; lia).
  assert (Run : forall h g1 sel s1 fuel1, 0 < h -> INR q * h < fl -> garbage_ok m1 g1 -> init_var m1 g1 rhs 0 (y 0) o sel None = Ret s1 -> hstep s1 = H0 -> (N <= fuel1)%nat ->
    exists N0 rows s2, (forall fuel, (N0 <= fuel)%nat ->
      run (E := E) (solver_of (E := E) m1 fuel1 o rhs PInf) fuel (map (fun i => @mul Rops (@ofnat Rops i) h) (seq 1 q)) s1 = (Ret rows, s2)) /\
      map fst rows = map (fun i => @mul Rops (@ofnat Rops i) h) (seq 1 q)).
  { intros h g1 sel s1 fuel1 Hh Hq' Hg Hi Hh1 Hfu. destruct (H fuel1 Hfu) as (H1 & _ & _ & _ & H5 & H6).
    destruct (init_var_fresh m1 g1 rhs 0 (y 0) o sel None s1 Hg eq_refl Hi) as (N1 & N2 & N3 & N4).
    destruct (run_returns (E := E) m1 fuel1 o rhs PInf (fun x => I fuel1 x /\ (now x = 0 /\ hstep x = H0 \/ INR q * h < now x)) fl (INR q * h) Hfl)
      with (s := s1) (t := map (fun i => @mul Rops (@ofnat Rops i) h) (seq 1 q)) as (N0 & rows & s2 & Q1 & _ & Q3).
    - intros x (Ix & [(Nx & Hx)|Nx]) _ Hle; [|exfalso; lra].
      destruct (H5 x Ix) as (x' & C1 & C2 & C3 & C4).
      + intros W. apply (proj1 (Rltb_true H0 (now x + hstep x))) in W. lra.
      + lra.
      + exists x'. split; [exact C1|]. split; [|auto]. split; [exact C2|]. right. lra.
    - intros t x (Ix & Nx) Ht. destruct (H6 t x Ix Ht) as (a & x' & A1 & A2 & A3).
      exists a, x'. split; [exact A1|]. split; [|exact A3]. split; [exact A2|]. destruct Nx as [(Nx & Hx)|Nx].
      + left. split; [unfold now in *; now rewrite A3|]. apply interp_sim, sim_iff in A1 as (_ & A1 & _). now rewrite A1.
      + right. unfold now in *. now rewrite A3.
    - split; [eapply H1; eauto|]. left. auto.
    - destruct q; [lia|discriminate].
    - now apply times_sorted.
    - intros x Hx. split; [|reflexivity]. apply in_map_iff in Hx as (i & <- & Hin). apply in_seq in Hin. rewrite ofnat_R, N4. change (0 <= INR i * h <= INR q * h).
      assert (0 <= INR i) by apply pos_INR. assert (INR i <= INR q) by (apply le_INR; lia). split; [apply Rmult_le_pos; lra|apply Rmult_le_compat_r; lra].
    - exists N0, rows, s2. split; [exact Q1|]. destruct Q3 as [Q3|(Q3 & _)]; [exact Q3|]. discriminate Q3. }
  destruct (classic (exists f0 l y1 f1 h1, rhs 0 (y 0) = Ret f0 /\ attempts rhs A B C (fsal_error o Ew) o order 0 (y 0) f0 H0 l y1 f1 h1)) as [(f0 & l & y1 & f1 & h1 & Hf0 & Ha)|Hno].
  - destruct (attempts_last _ _ _ _ _ _ _ _ _ _ _ _ _ _ _ Ha) as (K & HK & Hf1).
    pose proof (attempts_pos _ _ _ _ _ _ _ _ _ _ _ _ _ _ _ Hmin Hmax Ha HH) as HHp.
    exists N, (Rmin (fl / INR (S q)) (last_h l / INR (S q))). split; [apply Rmin_glb_lt; apply Rdiv_lt_0_compat; auto|].
    intros h g1 sel s1 fuel1 Hh Hg Hi Hh1 Hfu.
    assert (Bd : forall z, 0 < z -> h <= z / INR (S q) -> INR q * h < z).
    { intros z Hz Hle. assert (INR (S q) * h <= z). { apply (Rmult_le_compat_l (INR (S q))) in Hle; [|lra]. replace (INR (S q) * (z / INR (S q))) with z in Hle by (field; lra). exact Hle. }
      rewrite S_INR in *. lra. }
    destruct (Run h g1 sel s1 fuel1) as (N0 & rows & s2 & R1 & R2); auto; [apply Hh|apply Bd; auto; eapply Rle_trans; [apply Hh|apply Rmin_l]|].
    exists N0, rows, s2. split; [exact R1|]. split; [exact R2|].
    destruct (start_rows (E := E) A B C Ew order P o Hsh Ho Hor rhs n L te M' y dy HL HS H0 g1 sel s1 fuel1 N0 h q rows s2 Hte HH Hg Hi Hh1 (proj1 Hh) Hq (R1 N0 (le_n _))) as (f0' & l' & y1' & f1' & h1' & Q0 & Qa & Qr).
    assert (f0' = f0) by (assert (Q := eq_trans (eq_sym Q0) Hf0); now injection Q). subst f0'.
    destruct (attempts_det _ _ _ _ _ _ _ _ _ _ _ _ _ _ _ Ha _ _ _ _ Qa) as (<- & <- & <-).
    specialize (Qr K HK HHp ltac:(apply Bd; auto; eapply Rle_trans; [apply Hh|apply Rmin_r])).
    apply Forall_forall. intros r Hr. apply In_nth_error in Hr as (j & Hj). destruct (Qr j r Hj) as (_ & _ & Qs).
    refine (eq_trans (f_equal (@length R) Qs) _). unfold rk_dense. rewrite map_length, seq_length. exact Ly.
  - exists N, (fl / INR (S q)). split; [apply Rdiv_lt_0_compat; auto|]. intros h g1 sel s1 fuel1 Hh Hg Hi Hh1 Hfu. exfalso.
    destruct (Run h g1 sel s1 fuel1) as (N0 & rows & s2 & R1 & R2); auto; [apply Hh| |].
    { destruct Hh as (Hh & Hle). apply (Rmult_le_compat_l (INR (S q))) in Hle; [|lra]. replace (INR (S q) * (fl / INR (S q))) with fl in Hle by (field; lra). rewrite S_INR in Hle. lra. }
    destruct (start_rows (E := E) A B C Ew order P o Hsh Ho Hor rhs n L te M' y dy HL HS H0 g1 sel s1 fuel1 N0 h q rows s2 Hte HH Hg Hi Hh1 (proj1 Hh) Hq (R1 N0 (le_n _))) as (f0 & l & y1 & f1 & h1 & Q0 & Qa & _).
    apply Hno. exists f0, l, y1, f1, h1. auto.
Qed.
End F.

Lemma default_shrinking : shrinking (@default_options Rops) /\ tolerances (@default_options Rops).
Proof.
  split; [unfold shrinking; cbn [min_factor max_factor safety_factor default_options]; rewrite !lit_R; cbn; lra|].
  unfold tolerances. cbn [atol rtol default_options]. rewrite !lit_R. cbn. lra.
Qed.
(** the constructor of a multistep class with the default first stepper returns *)
Lemma init_default m M H0 : is_multistep m -> (1 <= ms_order m)%nat -> (1 <= n)%nat -> 0 < H0 -> bounded_at_zero n M 0 (@Fin Rops H0) rhs -> 
  exists N hmax, 0 < hmax /\ forall h g g1 sel s1 fuel1, 0 < h <= hmax -> garbage_ok m g -> garbage_ok RungeKutta45 g1 ->
    init_var RungeKutta45 g1 rhs 0 (y 0) default_options sel None = Ret s1 -> hstep s1 = H0 -> (N <= fuel1)%nat ->
    exists N0 s0, (forall fuel0, (N0 <= fuel0)%nat -> init_ms (E := E) m g rhs 0 (y 0) (Some h) (FSVar (fun _ _ => Ret (solver_of (E := E) RungeKutta45 fuel1 default_options rhs PInf, s1))) fuel0 = Ret s0) /\
      steady rhs n m h s0 /\ now s0 <= INR (ms_order m) * h.
Proof.
  intros Hms Hm1 Hn HH HM. pose proof (C2_dim _ _ _ _ _ HC Hte) as Ly. destruct (Hd 0 (y 0) Ly) as (f & Hf). pose proof (Hk _ _ _ Ly Hf) as Lf.
  destruct (len_history_pos m) as (k & Lk).
  assert (Base : forall g (h : R), garbage_ok m g -> exists s0, init_base (OT := Rops) m g rhs 0 (y 0) (Some h) = Ret s0 /\
    neat n (S (S k)) (cache s0) /\ now s0 = 0 /\ state s0 = y 0 /\ deriv s0 = f /\ hstep s0 = h /\ good rhs m s0).
  { intros g h Hg. destruct (init_base (OT := Rops) m g rhs 0 (y 0) (Some h)) as [s0| |] eqn:Hi; [|unfold init_base in Hi; rewrite Hf in Hi; discriminate|unfold init_base in Hi; rewrite Hf in Hi; discriminate].
    exists s0. split; [reflexivity|]. destruct (neat_base m g rhs 0 (y 0) f (Some h) s0 n Hg Ly Lf Hf Hi) as (N0 & T0 & Y0 & F0 & H1 & G0). rewrite Lk in N0. auto 10. }
  destruct (Nat.eqb (ms_order m) 1) eqn:eo.
  - exists 0%nat, 1. split; [lra|]. intros h g g1 sel s1 fuel1 Hh Hg _ _ _ _. destruct (Base g h Hg) as (s0 & Hi & N0 & T0 & Y0 & F0 & H1 & G0).
    destruct (init_ms_steady (E := E) rhs n Hk Hd m g None 0 (y 0) h FSNone 0 Hms Hg Ly (proj1 Hh)) as (s & Is & Ss & Ts & _); [discriminate|constructor|].
    exists 0%nat, s. split; [|split; [exact Ss|]].
    + intros fuel0 _. rewrite <- Is. unfold init_ms. rewrite Hi. cbn [obind]. rewrite eo. reflexivity.
    + rewrite Rplus_0_l in Ts. exact Ts.
  - destruct (Nat.eq_dec (ms_order m - 1) 0) as [Ez|Ez].
    { exfalso. apply Nat.eqb_neq in eo. lia. }
    destruct default_sane as (Hs & P1 & P2). destruct default_shrinking as (Hsr & Hto).
    pose proof (or_intror (or_introl eq_refl) : In (@RungeKutta45 Rops) pairs) as Hpr.
    destruct (@RungeKutta45 Rops) as [| | |A B C Ew order P|] eqn:em; try discriminate.
    assert (Hsh : length C = length A /\ A <> []) by (injection em as <- <- <- <- <- <-; split; [reflexivity|discriminate]).
    assert (Hor : (0 <= order)%Z) by (injection em as <- <- <- <- <- <-; lia).
    destruct (first_run A B C Ew order P default_options Hsh Hs P1 P2 Hor Hpr Hto Hsr M H0 (ms_order m - 1) Hn HH HM ltac:(lia)) as (N & hmax & Ph & H).
    exists N, hmax. split; [exact Ph|]. intros h g g1 sel s1 fuel1 Hh Hg Hg1 Hi1 Hh1 Hfu.
    destruct (H h g1 sel s1 fuel1 Hh Hg1 Hi1 Hh1 Hfu) as (N0 & rows & s2 & R1 & R2 & R3).
    destruct (Base g h Hg) as (s0 & Hi & Nt & T0 & Y0 & F0 & H1 & G0).
    assert (Hin : forall x, In x (map fst rows) -> 0 <= x <= INR (ms_order m) * h).
    { rewrite R2. intros x Hx. apply in_map_iff in Hx as (i & <- & Hi'). apply in_seq in Hi'. rewrite ofnat_R. change (0 <= INR i * h <= INR (ms_order m) * h).
      assert (0 <= INR i) by apply pos_INR. assert (INR i <= INR (ms_order m)) by (apply le_INR; lia). split; [apply Rmult_le_pos; lra|apply Rmult_le_compat_r; lra]. }
    destruct (push_rows_neat k (INR (ms_order m) * h) rows (cache s0) Nt) as (c' & Pc & Nc & Tc).
    + change (buf_t (cache s0)) with (now s0). rewrite T0. pose proof (times_sorted h (proj1 Hh) (ms_order m - 1) 1) as So. rewrite <- R2 in So.
      apply head_sorted; [exact So|]. intros x Hx. apply Hin, Hx.
    + exact R3.
    + intros x Hx. apply Hin, Hx.
    + change (now s0 <= INR (ms_order m) * h). rewrite T0. apply Rmult_le_pos; [apply pos_INR|lra].
    + exists N0, (set_cache c' s0). split; [|split; [|exact Tc]].
      * intros fuel0 Hfu0. unfold init_ms. rewrite Hi. cbn [obind]. rewrite eo. cbn [obind fst snd]. rewrite H1, (R1 fuel0 Hfu0), Pc. reflexivity.
      * apply neat_steady; [|cbn [cache set_cache]; rewrite Lk; exact Nc|exact H1].
        apply fs_push_all_spec in Pc as (le & -> & F & _). now apply good_push_all.
Qed.

Lemma C86_default_lemma k m bs M H0 : In (k, m, bs) ab_table -> (1 <= n)%nat -> 0 < H0 -> bounded_at_zero n M 0 (@Fin Rops H0) rhs ->
  exists K hmax N, 0 < hmax /\ forall h g g1 sel s1 fuel1, 0 < h <= hmax -> garbage_ok m g -> garbage_ok RungeKutta45 g1 ->
    init_var RungeKutta45 g1 rhs 0 (y 0) default_options sel None = Ret s1 -> hstep s1 = H0 -> (N <= fuel1)%nat ->
    exists N0 s0, (forall fuel0, (N0 <= fuel0)%nat -> init_ms (E := E) m g rhs 0 (y 0) (Some h) (FSVar (fun _ _ => Ret (solver_of (E := E) RungeKutta45 fuel1 default_options rhs PInf, s1))) fuel0 = Ret s0) /\
      now s0 <= INR k * h /\
      forall fuelc o tb fuel cs s t, s = session (E := E) (solver_of (E := E) m fuelc o rhs tb) fuel cs s0 -> now s <= te -> @gt_ext Rops te tb = false ->
      askable s (te - h) t -> solved (E := E) (solver_of (E := E) m fuelc o rhs tb) s t (K * h) y.
Proof.
  intros Hm Hn HH HM.
  assert (Em : exists A B, m = @ExplMS Rops A B /\ ms_order m = k /\ (1 <= k)%nat).
  { cbn [ab_table In] in Hm. destruct Hm as [Hm|[Hm|[Hm|[Hm|[Hm|[]]]]]]; injection Hm as <- <- <-; eexists; eexists; (split; [reflexivity|split; [reflexivity|lia]]). }
  destruct Em as (A & B & Em & Ek & K1).
  assert (Im : is_multistep m /\ explicit m /\ shaped m /\ is_fixed m = true) by (rewrite Em; cbn; auto). destruct Im as (Im & He & Sh & Fx).
  destruct (C33_default_lemma (E := E) k m bs rhs n L te y Hm HL Hte HC H0 HH) as (K & h1 & Ph1 & H1).
  destruct (init_default m M H0 Im ltac:(lia) Hn HH HM) as (N & h2 & Ph2 & H2).
  exists K, (Rmin h1 h2), N. split; [now apply Rmin_glb_lt|]. intros h g g1 sel s1 fuel1 Hh Hg Hg1 Hi1 Hh1 Hfu.
  pose proof (Rmin_l h1 h2). pose proof (Rmin_r h1 h2).
  destruct (H2 h g g1 sel s1 fuel1 ltac:(lra) Hg Hg1 Hi1 Hh1 Hfu) as (N0 & s0 & I0 & S0 & T0).
  exists N0, s0. split; [exact I0|]. split; [rewrite <- Ek; exact T0|]. intros fuelc o tb fuel cs s t Es Hnow Hg' Ht.
  assert (Ss : steady rhs n m h s). { rewrite Es. apply (steady_session (E := E) rhs n Hk); auto; [rewrite Em; exact I|lra]. }
  destruct (explicit_solves (E := E) rhs n L te HL Hd m fuelc o tb h s t He Sh Fx (proj1 Hh) Ss Hnow Hg' Ht) as (N' & rows & s' & R1 & R2 & R3).
  exists N', rows, s'. split; [exact R1|]. split; [exact R2|].
  destruct (H1 h g _ s0 N0 fuelc o tb fuel cs s ltac:(lra) Hg (starts_rk45 (E := E) rhs 0 (y 0) H0 g1 sel s1 fuel1 Hg1 Hi1 Hh1) (I0 N0 (le_n _)) Es) as (_ & H5).
  apply (H5 N' t rows s'); auto. apply Ht.
Qed.
End D.
