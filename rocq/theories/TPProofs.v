(* Tensor products: values entry by entry, bilinearity, equivariance. *)
From Coq Require Import Reals Lra Permutation.
From Verif Require Import PyBase PermModel PermProofs IrrepsModel IrrepsProofs IrrepsProofs2 ArrayModel ArrayProofs ArrayOps RechunkProofs ArithProofs BlockProofs LeadModel LeadProofs StackProofs BilinProofs ActProofs EquivProofs EquivProofs2 SumR EntryProofs TPModel LinearProofs.
Open Scope nat_scope.

Notation d0 := (0, Irrep 0 Even).
(* what a path needs: existing entries, an allowed coupling, existing copies, the declared number of copies *)
Definition path_ok (x y : irreps) (p : bpath) : Prop :=
  exists m1 a m2 b, nth_error x (b_in1 p) = Some (m1, a) /\ nth_error y (b_in2 p) = Some (m2, b) /\ In (b_out p) (ir_mul a b) /\
    length (b_pairs p) = b_mul p /\ Forall (fun '(u, v) => u < m1 /\ v < m2) (b_pairs p).

Definition dpath : bpath := BP 0 0 [] 0 (Irrep 0 Even) 0%R.
(* the value of component k of the w-th copy of path p *)
Definition path_val (cg : coupling) (x y : irreps) (rx ry : list R) (p : bpath) (w k : nat) : R :=
  let a := snd (nth (b_in1 p) x d0) in let b := snd (nth (b_in2 p) y d0) in
  let '(u, v) := nth w (b_pairs p) (0, 0) in
  (b_alpha p * rsum (ir_dim a) (fun e => rsum (ir_dim b) (fun f => cg (ir_l a) (ir_l b) (ir_l (b_out p)) e f k * entry x rx (b_in1 p) u e * entry y ry (b_in2 p) v f)))%R.
Definition bil_row (cg : coupling) (ps : list bpath) (x y : irreps) (rx ry : list R) : list R :=
  rowof (bil_out ps) (fun q => path_val cg x y rx ry (nth q ps dpath)).

Lemma bil_out_nth ps q : nth_error (bil_out ps) q = option_map (fun p => (b_mul p, b_out p)) (nth_error ps q).
Proof. apply nth_error_map. Qed.

Lemma nth_map_at {A B} (f : A -> B) l k d d' : k < length l -> nth k (map f l) d' = f (nth k l d).
Proof. intros H. rewrite (nth_indep _ d' (f d)) by (rewrite map_length; exact H). apply map_nth. Qed.

Lemma bil_core_yields cg nrm ps x y s : coherent x -> coherent y -> lead x = s -> lead y = s -> Forall (path_ok (irr x) (irr y)) ps -> nrm <> NOther ->
  yields (bil_core cg nrm ps x y s) (bil_out ps) s (fun i => bil_row cg ps (irr x) (irr y) (arr x i) (arr y i)).
Proof.
  intros Hx Hy Lx Ly Hps Hn. set (cs := map (bil_chunk cg s (irr x) (irr y) (chunks x) (chunks y)) ps).
  assert (E : bil_core cg nrm ps x y s = from_chunks (bil_out ps) cs s true) by (unfold bil_core; destruct nrm; try reflexivity; contradiction).
  rewrite E. eapply yields_ext; [|apply from_chunks_rowof].
  - intros i Hi. cbv beta. apply rowof_ext. intros q w k (mul & ir & Eq & Hw & Hk). rewrite bil_out_nth in Eq. destruct (nth_error ps q) as [p|] eqn:Ep; [|discriminate]. cbn [option_map] in Eq. injection Eq as <- <-.
    rewrite (nth_error_nth _ _ _ Ep). assert (Lq : q < length ps) by (apply nth_error_Some; congruence). unfold cs. rewrite (nth_map_at _ _ _ dpath) by exact Lq. rewrite (nth_error_nth _ _ _ Ep).
    rewrite Forall_forall in Hps. destruct (Hps p (nth_error_In _ _ Ep)) as (m1 & a & m2 & b & E1 & E2 & Hc & Lp & Fp). unfold path_val, bil_chunk. rewrite (nth_error_nth _ _ _ E1), (nth_error_nth _ _ _ E2). cbn [snd].
    destruct (nth w (b_pairs p) (0, 0)) as [u v] eqn:Ew. assert (Huv : u < m1 /\ v < m2). { rewrite Forall_forall in Fp. specialize (Fp (nth w (b_pairs p) (0, 0)) (nth_In _ _ ltac:(rewrite Lp; exact Hw))). rewrite Ew in Fp. exact Fp. }
    assert (C1 : forall e, e < ir_dim a -> centry (nth (b_in1 p) (chunks x) None) i u e = entry (irr x) (arr x i) (b_in1 p) u e) by (intros e He; apply entry_chunks; [exact Hx|rewrite Lx; exact Hi|exists m1, a; intuition]).
    assert (C2 : forall f, f < ir_dim b -> centry (nth (b_in2 p) (chunks y) None) i v f = entry (irr y) (arr y i) (b_in2 p) v f) by (intros e He; apply entry_chunks; [exact Hy|rewrite Ly; exact Hi|exists m2, b; intuition]).
    destruct (nth (b_in1 p) (chunks x) None) as [c|] eqn:Ec1.
    + destruct (nth (b_in2 p) (chunks y) None) as [d|] eqn:Ec2.
      * cbn [centry c_val]. rewrite (nth_map_at _ _ _ (0, 0)) by (rewrite Lp; exact Hw). rewrite Ew. rewrite (nth_map_at _ _ _ 0) by (rewrite seq_length; exact Hk). rewrite seq_nth by exact Hk. cbn [Nat.add].
        rewrite <- rsum_scal. apply rsum_ext. intros e He. rewrite <- rsum_scal. apply rsum_ext. intros f Hf. rewrite <- (C1 e He), <- (C2 f Hf). cbn [centry]. ring.
      * cbn [centry]. symmetry. rewrite rsum_zero; [lra|]. intros e He. apply rsum_zero. intros f Hf. rewrite <- (C2 f Hf). cbn [centry]. lra.
    + cbn [centry]. symmetry. rewrite rsum_zero; [lra|]. intros e He. apply rsum_zero. intros f Hf. rewrite <- (C1 e He). cbn [centry]. lra.
  - unfold cs, bil_out. clear E. induction Hps as [|p ps Hp Hps IH]; cbn [map]; constructor; [|exact (IH)].
    destruct Hp as (m1 & a & m2 & b & E1 & E2 & Hc & Lp & Fp). unfold bil_chunk. rewrite (nth_error_nth _ _ _ E1), (nth_error_nth _ _ _ E2). cbn [snd].
    destruct (nth (b_in1 p) (chunks x) None) as [c|]; [|exact I]. destruct (nth (b_in2 p) (chunks y) None) as [d|]; [|exact I].
    split; [reflexivity|]. split; [reflexivity|]. split; [reflexivity|]. intros i Hi. cbn [c_val fst snd]. split; [rewrite map_length; exact Lp|]. apply Forall_map, Forall_forall. intros [u v] _. rewrite map_length, seq_length. reflexivity.
Qed.
Lemma bil_row_length cg ps x y rx ry : length (bil_row cg ps x y rx ry) = dim (bil_out ps).
Proof. apply rowof_length. Qed.

(* ---------- equivariance ---------- *)
(* the coupling tensors intertwine: coupling the rotated inputs is rotating the coupled output *)
Definition intertwines (cg : coupling) (D : rep) : Prop :=
  forall a b c i j k, In c (ir_mul a b) -> i < ir_dim a -> j < ir_dim b -> k < ir_dim c ->
    rsum (ir_dim c) (fun k' => mat_at (D c) k k' * cg (ir_l a) (ir_l b) (ir_l c) i j k')%R =
    rsum (ir_dim a) (fun i' => rsum (ir_dim b) (fun j' => cg (ir_l a) (ir_l b) (ir_l c) i' j' k * mat_at (D a) i' i * mat_at (D b) j' j))%R.

Lemma path_val_act cg D x y rx ry p w k : rep_ok D -> intertwines cg D -> path_ok x y p -> length rx = dim x -> length ry = dim y -> w < b_mul p -> k < ir_dim (b_out p) ->
  rsum (ir_dim (b_out p)) (fun k' => mat_at (D (b_out p)) k k' * path_val cg x y rx ry p w k')%R = path_val cg x y (act D x rx) (act D y ry) p w k.
Proof.
  intros HD HI (m1 & a & m2 & b & E1 & E2 & Hc & Lp & Fp) Lx Ly Hw Hk. unfold path_val. rewrite (nth_error_nth _ _ _ E1), (nth_error_nth _ _ _ E2). cbn [snd].
  destruct (nth w (b_pairs p) (0, 0)) as [u v] eqn:Ew. assert (Huv : u < m1 /\ v < m2). { rewrite Forall_forall in Fp. specialize (Fp (nth w (b_pairs p) (0, 0)) (nth_In _ _ ltac:(rewrite Lp; exact Hw))). rewrite Ew in Fp. exact Fp. }
  set (X := entry x rx (b_in1 p) u). set (Y := entry y ry (b_in2 p) v). set (c := b_out p) in *.
  assert (A1 : forall e, e < ir_dim a -> entry x (act D x rx) (b_in1 p) u e = rsum (ir_dim a) (fun j => mat_at (D a) e j * X j)%R).
  { intros e He. rewrite act_entry by (auto; exists m1, a; intuition). rewrite (nth_error_nth _ _ _ E1). reflexivity. }
  assert (A2 : forall e, e < ir_dim b -> entry y (act D y ry) (b_in2 p) v e = rsum (ir_dim b) (fun j => mat_at (D b) e j * Y j)%R).
  { intros e He. rewrite act_entry by (auto; exists m2, b; intuition). rewrite (nth_error_nth _ _ _ E2). reflexivity. }
  set (g := cg (ir_l a) (ir_l b) (ir_l c)).
  transitivity (b_alpha p * rsum (ir_dim a) (fun i => rsum (ir_dim b) (fun j => X i * Y j * rsum (ir_dim c) (fun k' => mat_at (D c) k k' * g i j k'))))%R.
  - rewrite <- rsum_scal.
    rewrite (rsum_ext (ir_dim c) _ (fun k' => rsum (ir_dim a) (fun i => rsum (ir_dim b) (fun j => b_alpha p * (X i * Y j * (mat_at (D c) k k' * g i j k'))))))%R.
    + rewrite rsum_swap. apply rsum_ext. intros i Hi. rewrite rsum_swap. rewrite <- rsum_scal. apply rsum_ext. intros j Hj. rewrite <- !rsum_scal. reflexivity.
    + intros k' Hk'. rewrite <- Rmult_assoc, <- rsum_scal. apply rsum_ext. intros i Hi. rewrite <- rsum_scal. apply rsum_ext. intros j Hj. ring.
  - f_equal. transitivity (rsum (ir_dim a) (fun i => rsum (ir_dim b) (fun j => rsum (ir_dim a) (fun i' => rsum (ir_dim b) (fun j' => g i' j' k * (mat_at (D a) i' i * X i) * (mat_at (D b) j' j * Y j))))))%R.
    + apply rsum_ext. intros i Hi. apply rsum_ext. intros j Hj. unfold g. rewrite (HI a b c i j k Hc Hi Hj Hk). fold g. rewrite <- rsum_scal. apply rsum_ext. intros i' _. rewrite <- rsum_scal. apply rsum_ext. intros j' _. ring.
    + transitivity (rsum (ir_dim a) (fun i' => rsum (ir_dim b) (fun j' => rsum (ir_dim a) (fun i => rsum (ir_dim b) (fun j => g i' j' k * (mat_at (D a) i' i * X i) * (mat_at (D b) j' j * Y j))))))%R.
      * transitivity (rsum (ir_dim a) (fun i => rsum (ir_dim a) (fun i' => rsum (ir_dim b) (fun j => rsum (ir_dim b) (fun j' => g i' j' k * (mat_at (D a) i' i * X i) * (mat_at (D b) j' j * Y j))))))%R.
        { apply rsum_ext. intros i _. apply rsum_swap. }
        rewrite rsum_swap. apply rsum_ext. intros i' _. transitivity (rsum (ir_dim a) (fun i => rsum (ir_dim b) (fun j' => rsum (ir_dim b) (fun j => g i' j' k * (mat_at (D a) i' i * X i) * (mat_at (D b) j' j * Y j)))))%R; [apply rsum_ext; intros i _; apply rsum_swap|]. apply rsum_swap.
      * apply rsum_ext. intros i' Hi'. apply rsum_ext. intros j' Hj'. rewrite A1, A2 by assumption.
        rewrite (rsum_ext (ir_dim a) _ (fun i => g i' j' k * (mat_at (D a) i' i * X i) * rsum (ir_dim b) (fun j => mat_at (D b) j' j * Y j)))%R by (intros i _; apply rsum_scal).
        rewrite rsum_scal_r, rsum_scal. reflexivity.
Qed.
Lemma bil_row_act cg D ps x y rx ry : rep_ok D -> intertwines cg D -> Forall (path_ok x y) ps -> length rx = dim x -> length ry = dim y ->
  act D (bil_out ps) (bil_row cg ps x y rx ry) = bil_row cg ps x y (act D x rx) (act D y ry).
Proof.
  intros HD HI Hps Lx Ly. unfold bil_row. rewrite act_rowof by exact HD. apply rowof_ext. intros q w k (mul & ir & Eq & Hw & Hk). rewrite (nth_error_nth _ _ _ Eq). cbn [snd]. rewrite bil_out_nth in Eq. destruct (nth_error ps q) as [p|] eqn:Ep; [|discriminate]. cbn [option_map] in Eq. injection Eq as <- <-.
  rewrite (nth_error_nth _ _ _ Ep). rewrite Forall_forall in Hps. cbv zeta. apply path_val_act; auto. apply (Hps p (nth_error_In _ _ Ep)).
Qed.

(* ---------- bilinearity ---------- *)
Definition lin (r : R) (a b : list R) : list R := zipR Rplus (map (Rmult r) a) b.
Lemma zipR_app' f a b c d : length a = length c -> zipR f (a ++ b) (c ++ d) = zipR f a c ++ zipR f b d.
Proof. unfold zipR. revert c. induction a as [|u a IH]; intros [|v c] L; try discriminate; [reflexivity|]. cbn [app combine map]. f_equal. apply IH. cbn in L. lia. Qed.
Lemma rowof_lin r x F G : rowof x (fun k u c => r * F k u c + G k u c)%R = lin r (rowof x F) (rowof x G).
Proof.
  unfold lin. revert F G. induction x as [|m x IH]; intros F G; [reflexivity|]. cbn [rowof]. rewrite map_app, zipR_app'.
  - f_equal; [|apply (IH (fun k => F (S k)) (fun k => G (S k)))]. generalize (F 0) (G 0). clear. intros F G. generalize (fst m) as n, (ir_dim (snd m)) as d. intros n d. revert F G. induction n as [|n IH]; intros F G; [reflexivity|].
    assert (S1 : forall H : nat -> nat -> R, tab2 (S n) d H = tab d (H 0) :: tab2 n d (fun u => H (S u))) by (intros H; unfold tab2, tab at 1; cbn [seq map]; f_equal; rewrite <- seq_shift, map_map; reflexivity).
    rewrite !S1. cbn [concat]. rewrite map_app, zipR_app' by (rewrite map_length, !tab_length; reflexivity). f_equal; [|apply IH]. unfold tab. rewrite map_map. unfold zipR. rewrite combine_of_map, map_map. reflexivity.
  - rewrite map_length. destruct (tab2_wf (fst m) (ir_dim (snd m)) (F 0)) as [L W]. destruct (tab2_wf (fst m) (ir_dim (snd m)) (G 0)) as [L' W']. rewrite !(concat_length_uniform (ir_dim (snd m))) by assumption. congruence.
Qed.
Lemma lin_length r a b : length a = length b -> length (lin r a b) = length b.
Proof. intros L. unfold lin, zipR. rewrite map_length, combine_length, map_length. lia. Qed.
Lemma entry_lin r x a b k u c : length a = dim x -> length b = dim x -> inside x k u c -> entry x (lin r a b) k u c = (r * entry x a k u c + entry x b k u c)%R.
Proof.
  intros La Lb Hin. rewrite <- (rowof_entry x a La), <- (rowof_entry x b Lb). rewrite <- rowof_lin. rewrite entry_rowof by exact Hin. rewrite !rowof_entry by assumption. reflexivity.
Qed.
Lemma path_inside x y p w k : path_ok x y p -> w < b_mul p -> exists m1 a m2 b, nth_error x (b_in1 p) = Some (m1, a) /\ nth_error y (b_in2 p) = Some (m2, b) /\
  (let '(u, v) := nth w (b_pairs p) (0, 0) in (forall e, e < ir_dim a -> inside x (b_in1 p) u e) /\ (forall f, f < ir_dim b -> inside y (b_in2 p) v f)) /\ (k < ir_dim (b_out p) -> In (b_out p) (ir_mul a b)).
Proof.
  intros (m1 & a & m2 & b & E1 & E2 & Hc & Lp & Fp) Hw. exists m1, a, m2, b. split; [exact E1|]. split; [exact E2|]. split; [|auto].
  destruct (nth w (b_pairs p) (0, 0)) as [u v] eqn:Ew. assert (Huv : u < m1 /\ v < m2). { rewrite Forall_forall in Fp. specialize (Fp (nth w (b_pairs p) (0, 0)) (nth_In _ _ ltac:(rewrite Lp; exact Hw))). rewrite Ew in Fp. exact Fp. }
  split; intros e He; [exists m1, a|exists m2, b]; intuition.
Qed.
Lemma bil_row_lin_l cg ps x y r rx rx' ry : Forall (path_ok x y) ps -> length rx = dim x -> length rx' = dim x ->
  bil_row cg ps x y (lin r rx rx') ry = lin r (bil_row cg ps x y rx ry) (bil_row cg ps x y rx' ry).
Proof.
  intros Hps L L'. unfold bil_row. rewrite <- rowof_lin. apply rowof_ext. intros q w k (mul & ir & Eq & Hw & Hk). rewrite bil_out_nth in Eq. destruct (nth_error ps q) as [p|] eqn:Ep; [|discriminate]. cbn [option_map] in Eq. injection Eq as <- <-.
  rewrite (nth_error_nth _ _ _ Ep). rewrite Forall_forall in Hps. destruct (path_inside x y p w k (Hps p (nth_error_In _ _ Ep)) Hw) as (m1 & a & m2 & b & E1 & E2 & I & _). unfold path_val. rewrite (nth_error_nth _ _ _ E1), (nth_error_nth _ _ _ E2). cbn [snd].
  destruct (nth w (b_pairs p) (0, 0)) as [u v]. destruct I as [I1 I2]. rewrite <- Rmult_assoc, (Rmult_comm r), Rmult_assoc, <- Rmult_plus_distr_l. f_equal. rewrite <- rsum_scal, <- rsum_plus. apply rsum_ext. intros e He. rewrite <- rsum_scal, <- rsum_plus. apply rsum_ext. intros f Hf.
  rewrite entry_lin by auto. ring.
Qed.
Lemma bil_row_lin_r cg ps x y r rx ry ry' : Forall (path_ok x y) ps -> length ry = dim y -> length ry' = dim y ->
  bil_row cg ps x y rx (lin r ry ry') = lin r (bil_row cg ps x y rx ry) (bil_row cg ps x y rx ry').
Proof.
  intros Hps L L'. unfold bil_row. rewrite <- rowof_lin. apply rowof_ext. intros q w k (mul & ir & Eq & Hw & Hk). rewrite bil_out_nth in Eq. destruct (nth_error ps q) as [p|] eqn:Ep; [|discriminate]. cbn [option_map] in Eq. injection Eq as <- <-.
  rewrite (nth_error_nth _ _ _ Ep). rewrite Forall_forall in Hps. destruct (path_inside x y p w k (Hps p (nth_error_In _ _ Ep)) Hw) as (m1 & a & m2 & b & E1 & E2 & I & _). unfold path_val. rewrite (nth_error_nth _ _ _ E1), (nth_error_nth _ _ _ E2). cbn [snd].
  destruct (nth w (b_pairs p) (0, 0)) as [u v]. destruct I as [I1 I2]. rewrite <- Rmult_assoc, (Rmult_comm r), Rmult_assoc, <- Rmult_plus_distr_l. f_equal. rewrite <- rsum_scal, <- rsum_plus. apply rsum_ext. intros e He. rewrite <- rsum_scal, <- rsum_plus. apply rsum_ext. intros f Hf.
  rewrite entry_lin by auto. ring.
Qed.
