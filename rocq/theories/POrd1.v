(** All rooted trees of bounded size, and a decision procedure for the order
    conditions of rational tableaux. *)
From Coq Require Import List ZArith QArith Bool Arith Lia Reals Lra Qreals Permutation.
From Verif Require Import Base Scalar Vec MBuffer MZeros MSteps MApi MDop853 MClasses Spec SpecInst PVecR SpecOrder.
Import ListNotations.
Open Scope R_scope.

(** ** forests *)
Definition fsize (ts : list tree) : nat := fold_right (fun c n => (size c + n)%nat) 0%nat ts.
Definition fdens (ts : list tree) : R := fold_right (fun c d => density c * d) 1 ts.
Definition fweights (A : list (list R)) (ts : list tree) : list R :=
  map (fun a => fold_right (fun c x => dot a (stage_weights A c) * x) 1 ts) A.
Lemma size_node ts : size (Node ts) = S (fsize ts). Proof. reflexivity. Qed.
Lemma fsize_cons c ts : fsize (c :: ts) = (size c + fsize ts)%nat. Proof. reflexivity. Qed.
Lemma fdens_cons c ts : fdens (c :: ts) = density c * fdens ts. Proof. reflexivity. Qed.
Lemma density_node ts : density (Node ts) = INR (S (fsize ts)) * fdens ts. Proof. reflexivity. Qed.
Lemma weights_node A ts : stage_weights A (Node ts) = fweights A ts. Proof. reflexivity. Qed.

(** ** integer data: entries of the tableau are integers over [N]; a forest of
    [i] nodes has stage weights over [N ^ i] *)
Definition datum : Type := Z * list Z.
Fixpoint dotZ (a v : list Z) : Z :=
  match a, v with x :: a', y :: v' => Z.add (if Z.eqb x 0 then 0%Z else Z.mul x y) (dotZ a' v') | _, _ => 0%Z end.
Section Table.
Variable A : list (list Z).
(** a tree with its factor in each stage, from the forest at its root *)
Definition apply_A (k : nat) (p : datum) : datum :=
  (Z.mul (Z.of_nat k) (fst p), map (fun a => dotZ a (snd p)) A).
Definition times (u v : datum) : datum := (Z.mul (fst u) (fst v), map2 Z.mul (snd u) (snd v)).
Definition products (U F : list datum) : list datum := flat_map (fun u => map (times u) F) U.
(** [old]: forests of trees with fewer than [k] nodes, by their number of nodes;
    [U]: trees with [k] nodes; result: forests of trees with at most [k] nodes *)
Fixpoint grow (U : list datum) (k : nat) (old acc : list (list datum)) : list (list datum) :=
  match old with
  | [] => rev acc
  | F :: old' => grow U k old' ((F ++ products U (nth (k - 1) acc [])) :: acc)
  end.
Fixpoint table (m k : nat) : list (list datum) :=
  match k with
  | O => [(1%Z, map (fun _ => 1%Z) A)] :: repeat [] m
  | S k' => let G := table m k' in grow (map (apply_A k) (nth k' G [])) k G []
  end.
End Table.

Lemma map2_maps {X} (f g : X -> R) l : map2 Rmult (map f l) (map g l) = map (fun a => f a * g a) l.
Proof. induction l as [|a l IH]; cbn; [reflexivity|]. now rewrite IH. Qed.

(** ** meaning of the data *)
Section Sound.
Variable (AZ : list (list Z)) (N : Z).
Hypothesis HN : (0 < N)%Z.
Let q (z : Z) (i : nat) : R := IZR z / IZR N ^ i.
Let A : list (list R) := map (map (fun z => q z 1)) AZ.
Lemma N_pos i : 0 < IZR N ^ i. Proof. apply pow_lt. now apply IZR_lt in HN. Qed.
Lemma dotZ_sound a : forall v i, dot (map (fun z => q z 1) a) (map (fun z => q z i) v) = q (dotZ a v) (S i).
Proof.
  pose proof (N_pos 1) as H1. cbn [pow] in H1. rewrite Rmult_1_r in H1.
  induction a as [|x a IH]; intros [|y v] i; cbn [map dot dotZ];
    try (unfold q; unfold Rdiv; rewrite Rmult_0_l; reflexivity).
  rewrite IH. unfold q. rewrite plus_IZR. pose proof (N_pos i) as Hi.
  destruct (Z.eqb_spec x 0) as [->|_]; [|rewrite mult_IZR]; cbn [pow]; field; lra.
Qed.
Definition data_tree (k : nat) (c : tree) (d : datum) : Prop :=
  size c = k /\ density c = IZR (fst d) /\ map (fun a => dot a (stage_weights A c)) A = map (fun z => q z k) (snd d).
Definition data_forest (i : nat) (ts : list tree) (d : datum) : Prop :=
  fsize ts = i /\ fdens ts = IZR (fst d) /\ fweights A ts = map (fun z => q z i) (snd d).
Lemma data_apply i ts d : data_forest i ts d -> data_tree (S i) (Node ts) (apply_A AZ (S i) d).
Proof.
  intros (H1 & H2 & H3). split; [now rewrite size_node, H1|]. split.
  - rewrite density_node, H1, H2. unfold apply_A. cbn [fst]. rewrite mult_IZR, <- INR_IZR_INZ. reflexivity.
  - rewrite weights_node, H3. unfold A, apply_A. cbn [snd]. rewrite !map_map. apply map_ext. intros a. apply dotZ_sound.
Qed.
Lemma data_times k i c ts u v : data_tree k c u -> data_forest i ts v -> data_forest (k + i) (c :: ts) (times u v).
Proof.
  intros (U1 & U2 & U3) (V1 & V2 & V3). split; [rewrite fsize_cons, U1, V1; reflexivity|]. split.
  - rewrite fdens_cons. unfold times. cbn [fst]. rewrite mult_IZR, U2, V2. reflexivity.
  - unfold times. cbn [snd].
    assert (E : fweights A (c :: ts) = map2 Rmult (map (fun a => dot a (stage_weights A c)) A) (fweights A ts)).
    { unfold fweights. cbn [fold_right]. now rewrite map2_maps. }
    rewrite E, U3, V3. clear - HN. destruct u as (? & u), v as (? & v). cbn [snd].
    revert v. induction u as [|x u IH]; intros [|y v]; cbn; auto. rewrite IH. f_equal.
    unfold q. rewrite mult_IZR, pow_add. pose proof (N_pos k). pose proof (N_pos i). field. lra.
Qed.
Definition small (k : nat) (ts : list tree) : Prop := Forall (fun c => (size c <= k)%nat) ts.
Definition has_forests (m k : nat) (G : list (list datum)) : Prop :=
  forall ts, small k ts -> (fsize ts <= m)%nat -> exists d, In d (nth (fsize ts) G []) /\ data_forest (fsize ts) ts d.
Lemma size_pos c : (1 <= size c)%nat. Proof. destruct c. cbn. lia. Qed.
Lemma small_self ts : small (fsize ts) ts.
Proof.
  induction ts as [|c ts IH]; constructor; rewrite fsize_cons; [lia|].
  eapply Forall_impl; [|exact IH]. cbn. intros. lia.
Qed.
Lemma fsize_perm ts ts' : Permutation ts ts' -> fsize ts = fsize ts'.
Proof. induction 1; rewrite ?fsize_cons; lia. Qed.
Lemma fdens_perm ts ts' : Permutation ts ts' -> fdens ts = fdens ts'.
Proof. induction 1; rewrite ?fdens_cons; try congruence. ring. Qed.
Lemma fweights_perm B ts ts' : Permutation ts ts' -> fweights B ts = fweights B ts'.
Proof.
  intros P. unfold fweights. apply map_ext. intros a.
  induction P; cbn [fold_right]; try congruence. ring.
Qed.
Lemma data_perm i ts ts' d : Permutation ts ts' -> data_forest i ts d -> data_forest i ts' d.
Proof.
  intros P (H1 & H2 & H3). split; [now rewrite <- (fsize_perm _ _ P)|]. split; [now rewrite <- (fdens_perm _ _ P)|].
  now rewrite <- (fweights_perm _ _ _ P).
Qed.
Lemma grow_length U k old : forall acc, length (grow U k old acc) = (length acc + length old)%nat.
Proof. induction old as [|F old IH]; intros acc; cbn [grow]; [rewrite rev_length; cbn; lia|]. rewrite IH. cbn. lia. Qed.
Lemma grow_nth U k old : (1 <= k)%nat -> forall acc i, (i < length acc + length old)%nat ->
  let G := grow U k old acc in
  nth i G [] = if (i <? length acc)%nat then nth (length acc - 1 - i) acc []
               else nth (i - length acc) old [] ++ (if (k <=? i)%nat then products U (nth (i - k) G []) else products U []).
Proof.
  intros Hk. induction old as [|F old IH]; intros acc i Hi G; cbn [length] in Hi.
  - subst G. cbn [grow]. destruct (Nat.ltb_spec i (length acc)); [|lia].
    rewrite rev_nth by lia. f_equal. lia.
  - subst G. cbn [grow]. set (acc' := (F ++ products U (nth (k - 1) acc [])) :: acc).
    assert (L : length acc' = S (length acc)) by reflexivity.
    pose proof (IH acc' i ltac:(lia)) as H. cbv zeta in H. rewrite H, L.
    destruct (Nat.ltb_spec i (length acc)).
    + destruct (Nat.ltb_spec i (S (length acc))); [|lia]. unfold acc'.
      replace (S (length acc) - 1 - i)%nat with (S (length acc - 1 - i)) by lia. reflexivity.
    + destruct (Nat.ltb_spec i (S (length acc))).
      * assert (i = length acc) by lia. subst i. replace (S (length acc) - 1 - length acc)%nat with 0%nat by lia.
        rewrite Nat.sub_diag. unfold acc' at 1. cbn [nth]. f_equal.
        destruct (Nat.leb_spec k (length acc)) as [Hl|Hl].
        -- f_equal. pose proof (IH acc' (length acc - k)%nat ltac:(lia)) as H2. cbv zeta in H2. rewrite H2, L.
           destruct (Nat.ltb_spec (length acc - k) (S (length acc))); [|lia]. unfold acc'.
           replace (S (length acc) - 1 - (length acc - k))%nat with (S (k - 1)) by lia. reflexivity.
        -- now rewrite nth_overflow by lia.
      * replace (i - length acc)%nat with (S (i - S (length acc))) by lia. reflexivity.
Qed.
Lemma table_sound m k : (k <= m)%nat -> length (table AZ m k) = S m /\ has_forests m k (table AZ m k).
Proof.
  induction k as [|k IH]; intros Hk.
  - cbn [table]. split; [cbn; now rewrite repeat_length|].
    intros [|c ts] Hs Hf.
    + eexists. split; [left; reflexivity|]. split; [reflexivity|]. split; [reflexivity|].
      unfold fweights, A. cbn [fold_right snd]. rewrite !map_map. apply map_ext. intros _. unfold q. cbn. field.
    + inversion Hs. pose proof (size_pos c). lia.
  - destruct IH as (L & H); [lia|]. cbn [table]. set (G := table AZ m k) in *. set (U := map (apply_A AZ (S k)) (nth k G [])).
    assert (L' : length (grow U (S k) G []) = S m) by (rewrite grow_length; cbn; lia).
    split; [exact L'|].
    assert (HU : forall c, size c = S k -> exists d, In d U /\ data_tree (S k) c d).
    { intros [us] Hc. rewrite size_node in Hc. assert (Hu : fsize us = k) by lia.
      destruct (H us) as (d & Id & Dd); [rewrite <- Hu; apply small_self|lia|]. rewrite Hu in *.
      exists (apply_A AZ (S k) d). split; [now apply in_map|now apply data_apply]. }
    assert (GN : forall i, (i <= m)%nat -> nth i (grow U (S k) G []) [] =
       nth i G [] ++ (if (S k <=? i)%nat then products U (nth (i - S k) (grow U (S k) G []) []) else products U [])).
    { intros i Hi. pose proof (grow_nth U (S k) G ltac:(lia) [] i ltac:(cbn; lia)) as E. cbv zeta in E. cbn [length] in E.
      rewrite E. cbn [Nat.ltb Nat.leb]. now rewrite Nat.sub_0_r. }
    assert (Main : forall n ts, (length ts <= n)%nat -> small (S k) ts -> (fsize ts <= m)%nat ->
      exists d, In d (nth (fsize ts) (grow U (S k) G []) []) /\ data_forest (fsize ts) ts d).
    { induction n as [|n IHn]; intros ts Ln Hs Hf.
      - destruct ts; [|cbn in Ln; lia]. destruct (H [] ltac:(constructor) Hf) as (d & Id & Dd). exists d. split; auto.
        rewrite GN by exact Hf. apply in_or_app. auto.
      - destruct (Forall_Exists_dec (fun c => (size c <= k)%nat) (fun c => le_dec (size c) k) ts) as [Ha|He].
        + destruct (H ts Ha Hf) as (d & Id & Dd). exists d. split; auto. rewrite GN by exact Hf. apply in_or_app. auto.
        + apply Exists_exists in He as (c & Ic & Hc).
          assert (Sc : size c = S k). { unfold small in Hs. rewrite Forall_forall in Hs. specialize (Hs c Ic). lia. }
          apply in_split in Ic as (l1 & l2 & ->).
          assert (P : Permutation (c :: l1 ++ l2) (l1 ++ c :: l2)) by apply Permutation_middle.
          assert (Fe : fsize (l1 ++ c :: l2) = (S k + fsize (l1 ++ l2))%nat) by (rewrite <- (fsize_perm _ _ P), fsize_cons; lia).
          destruct (IHn (l1 ++ l2)) as (v & Iv & Dv).
          { rewrite app_length in *. cbn [length] in Ln. lia. }
          { apply Forall_app in Hs as (A1 & A2). inversion A2; subst. now apply Forall_app. }
          { lia. }
          destruct (HU c Sc) as (u & Iu & Du).
          exists (times u v). rewrite Fe. split.
          * rewrite GN by lia. apply in_or_app. right. destruct (Nat.leb_spec (S k) (S k + fsize (l1 ++ l2))); [|lia].
            apply in_flat_map. exists u. split; auto. apply in_map_iff. exists v. split; auto.
            replace (S k + fsize (l1 ++ l2) - S k)%nat with (fsize (l1 ++ l2)) by lia. exact Iv.
          * apply (data_perm _ _ _ _ P). now apply data_times. }
    intros ts Hs Hf. now apply (Main (length ts)).
Qed.

(** ** the check *)
(** Phi(t) = w / N^(i+1), gamma(t) = g: |w g - N^(i+1)| E <= N^(i+1) g, with eps = 1/E; for E = 0 equality *)
Definition ok1 (B : list Z) (i : nat) (Ni : Z) (E : Z) (d : datum) : bool :=
  let g := Z.mul (Z.of_nat (S i)) (fst d) in
  let w := dotZ B (snd d) in
  let e := Z.sub (Z.mul w g) Ni in
  Z.ltb 0 g && (if Z.eqb E 0 then Z.eqb e 0 else Z.leb (Z.mul (Z.abs e) E) (Z.mul Ni g)).
Fixpoint check (B : list Z) (E : Z) (i : nat) (Fs : list (list datum)) : bool :=
  match Fs with
  | [] => true
  | F :: Fs' => (let Ni := Z.pow N (Z.of_nat (S i)) in forallb (ok1 B i Ni E) F) && check B E (S i) Fs'
  end.
Definition check_order (p : nat) (B : list Z) (E : Z) : bool :=
  match p with O => true | S m => check B E 0 (table AZ m m) end.
Lemma check_in B E Fs : forall i k d, check B E i Fs = true ->
  In d (nth k Fs []) -> ok1 B (i + k) (N ^ Z.of_nat (S (i + k))) E d = true.
Proof.
  induction Fs as [|F Fs IH]; intros i k d H Hd; [destruct k; destruct Hd|].
  cbn [check] in H. apply andb_true_iff in H as (H & Hr). destruct k as [|k]; cbn [nth] in Hd.
  - rewrite Nat.add_0_r. rewrite forallb_forall in H. auto.
  - replace (i + S k)%nat with (S i + k)%nat by lia. apply IH; auto.
Qed.
Lemma weight_bound B E p t : check_order p B E = true -> (size t <= p)%nat ->
  let BR := map (fun z => q z 1) B in
  (E = 0%Z -> weight A BR t = / density t) /\
  ((0 < E)%Z -> Rabs (weight A BR t - / density t) <= / IZR E).
Proof.
  intros H Hs BR. destruct t as [ts]. rewrite size_node in Hs. destruct p as [|m]; [lia|].
  cbn [check_order] in H. destruct (table_sound m m (le_n m)) as (_ & HF).
  destruct (HF ts) as (d & Id & D1 & D2 & D3); [|lia|].
  { eapply Forall_impl; [|apply small_self]. cbn. intros. lia. }
  pose proof (check_in B E _ 0 (fsize ts) d H Id) as O. rewrite Nat.add_0_l in O.
  set (i := fsize ts) in *. unfold ok1 in O. apply andb_true_iff in O as (Og & O). apply Z.ltb_lt in Og.
  assert (G : density (Node ts) = IZR (Z.of_nat (S i) * fst d)) by (rewrite density_node, D2, mult_IZR, <- INR_IZR_INZ; reflexivity).
  assert (Wt : weight A BR (Node ts) = q (dotZ B (snd d)) (S i)) by (unfold weight, BR; rewrite weights_node, D3; apply dotZ_sound).
  rewrite G, Wt. set (g := (Z.of_nat (S i) * fst d)%Z) in *. set (w := dotZ B (snd d)) in *.
  pose proof (N_pos (S i)) as PN. assert (Pg : 0 < IZR g) by now apply IZR_lt.
  assert (EN : IZR (N ^ Z.of_nat (S i)) = IZR N ^ S i) by (now rewrite pow_IZR).
  assert (Ed : q w (S i) - / IZR g = IZR (w * g - N ^ Z.of_nat (S i)) / (IZR N ^ S i * IZR g)).
  { rewrite minus_IZR, mult_IZR, EN. unfold q. field. lra. }
  split.
  - intros ->. cbn [Z.eqb] in O. apply Z.eqb_eq in O. rewrite O in Ed. unfold Rdiv in Ed. rewrite Rmult_0_l in Ed. lra.
  - intros HE. destruct (Z.eqb_spec E 0); [lia|]. apply Z.leb_le in O. apply IZR_le in O. rewrite !mult_IZR, EN, abs_IZR in O.
    assert (PE : 0 < IZR E) by now apply IZR_lt.
    assert (PNg : 0 < IZR N ^ S i * IZR g) by now apply Rmult_lt_0_compat.
    rewrite Ed. unfold Rdiv. rewrite Rabs_mult, (Rabs_pos_eq (/ _)) by (left; now apply Rinv_0_lt_compat).
    apply (Rmult_le_reg_r (IZR E * (IZR N ^ S i * IZR g))); [now apply Rmult_lt_0_compat|].
    replace (/ IZR E * (IZR E * (IZR N ^ S i * IZR g))) with (IZR N ^ S i * IZR g) by (field; lra).
    replace (Rabs (IZR (w * g - N ^ Z.of_nat (S i))) * / (IZR N ^ S i * IZR g) * (IZR E * (IZR N ^ S i * IZR g)))
      with (Rabs (IZR (w * g - N ^ Z.of_nat (S i))) * IZR E) by (field; split; lra). exact O.
Qed.
End Sound.
