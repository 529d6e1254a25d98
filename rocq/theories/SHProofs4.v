(* The values of the harmonics in spherical coordinates. *)
From Coq Require Import Reals Lra ZArith Lia List Bool Arith.
From Coquelicot Require Import Coquelicot.
From Verif Require Import PyBase IrrepsModel IrrepsProofs ArrayModel LeadModel SumR CGModel EntryProofs CGProofs3 CGProofs5 CGProofs9 CGProofs11 RotationModel RotationProofs RadialProofs PolyProofs TrigProofs S2Model LegendreProofs S2Proofs SHModel SHProofs SHProofs2 SHProofs3.
Import ListNotations.
Open Scope R_scope.
Notation V := LegendreProofs.V.

Definition Du (l n : nat) : R -> R := Derive_n (u l) n.
Lemma Du_der l n (x : R) : is_derive (Du l n) x (Du l (S n) x).
Proof. exact (poly_derivable _ (Du l n) x (poly_Derive_n _ (u l) n (lead_poly _ _ _ (u_lead l)))). Qed.
Lemma der_id (x : R) : is_derive (fun t : R => t) x 1.
Proof. exact (is_derive_id x). Qed.
Lemma der_sq (x : R) : is_derive (fun t : R => t ^ 2 - 1) x (2 * x).
Proof.
  apply (der_ext (fun t => t * t + (-1))); [intros; ring|]. apply (der_eq _ _ ((1 * x + x * 1) + 0)); [ring|]. apply (der_plus (fun t => t * t) (fun _ => -1)); [apply (der_mult (fun t => t) (fun t => t)); apply der_id|apply der_const].
Qed.
Lemma zero_derive (f : R -> R) (x d : R) : (forall t, f t = 0) -> is_derive f x d -> d = 0.
Proof. intros H K. transitivity (Derive f x); [symmetry; apply is_derive_unique, K|]. apply is_derive_unique. apply (der_ext (fun _ => 0)); [intros; symmetry; apply H|apply der_const]. Qed.
Lemma Du_0 l x : (x ^ 2 - 1) * Du l 1 x = 2 * INR l * x * Du l 0 x.
Proof.
  assert (D : is_derive (u l) x (INR l * (2 * x) * (x ^ 2 - 1) ^ Nat.pred l)).
  { unfold u. apply is_derive_Reals. pose proof (der_sq x) as Q. apply is_derive_Reals in Q. pose proof (derivable_pt_lim_comp (fun t => t ^ 2 - 1) (fun y => y ^ l) x _ _ Q (derivable_pt_lim_pow (x ^ 2 - 1) l)) as K. unfold comp in K.
    replace (INR l * (2 * x) * (x ^ 2 - 1) ^ Nat.pred l) with (INR l * (x ^ 2 - 1) ^ Nat.pred l * (2 * x)) by ring. exact K. }
  change (Du l 1 x) with (Derive (u l) x). rewrite (is_derive_unique _ _ _ D). change (Du l 0 x) with (u l x). unfold u. destruct l as [|l]; [cbn [INR]; ring|]. cbn [Nat.pred pow]. ring.
Qed.
Lemma Du_rec l n x : (x ^ 2 - 1) * Du l (S (S n)) x + 2 * (INR n + 1 - INR l) * x * Du l (S n) x + (INR n + 1) * (INR n - 2 * INR l) * Du l n x = 0.
Proof.
  revert x. induction n as [|n IH]; intros x.
  - cbn [INR]. apply (zero_derive (fun t => (t ^ 2 - 1) * Du l 1 t + - (2 * INR l) * (t * Du l 0 t)) x); [intros t; rewrite Du_0; ring|].
    eapply der_eq; [|apply (der_plus (fun t => (t ^ 2 - 1) * Du l 1 t)); [apply (der_mult (fun t => t ^ 2 - 1) (Du l 1)); [apply der_sq|apply Du_der]|apply der_scal; apply (der_mult (fun t => t) (Du l 0)); [apply der_id|apply Du_der]]]. ring.
  - rewrite S_INR. apply (zero_derive (fun t => (t ^ 2 - 1) * Du l (S (S n)) t + (2 * (INR n + 1 - INR l)) * (t * Du l (S n) t) + ((INR n + 1) * (INR n - 2 * INR l)) * Du l n t) x); [intros t; rewrite <- (IH t); ring|].
    eapply der_eq; [|apply (der_plus (fun t => (t ^ 2 - 1) * Du l (S (S n)) t + (2 * (INR n + 1 - INR l)) * (t * Du l (S n) t))); [apply (der_plus (fun t => (t ^ 2 - 1) * Du l (S (S n)) t)); [apply (der_mult (fun t => t ^ 2 - 1) (Du l (S (S n)))); [apply der_sq|apply Du_der]|apply der_scal; apply (der_mult (fun t => t) (Du l (S n))); [apply der_id|apply Du_der]]|apply der_scal, Du_der]]. ring.
Qed.
Lemma V_der l m (x : R) : is_derive (V l m) x (V l (S m) x).
Proof. unfold V. rewrite Nat.add_succ_r. exact (Du_der l (l + m) x). Qed.
Lemma V_rec l m x : (1 - x ^ 2) * V l (S (S m)) x - 2 * INR (S m) * x * V l (S m) x + (INR l + INR (S m)) * (INR l - INR m) * V l m x = 0.
Proof.
  pose proof (Du_rec l (l + m) x) as E. unfold V. rewrite !Nat.add_succ_r. change (Derive_n (u l)) with (Du l). rewrite plus_INR in E. rewrite S_INR. nra.
Qed.
Lemma V_at_1 l m : (m <= l)%nat -> V l m 1 = 2 ^ l * INR (fact l) * (INR (fact (l + m)) / (INR (fact (l - m)) * INR (fact m) * 2 ^ m)).
Proof.
  intros Hm. assert (G : forall m, (m <= l)%nat -> V l m 1 = V l 0 1 * (INR (fact (l + m)) / (INR (fact (l - m)) * INR (fact m) * 2 ^ m))).
  { clear m Hm. induction m as [|m IH]; intros H; [rewrite Nat.add_0_r, Nat.sub_0_r; cbn [fact pow INR]; field; apply INR_fact_neq_0|].
    pose proof (V_rec l m 1) as E. rewrite IH in E by lia. replace (l + S m)%nat with (S (l + m)) by lia. rewrite (fact_simpl (l + m)), (fact_simpl m), !mult_INR. replace (l - m)%nat with (S (l - S m)) in E by lia. rewrite fact_simpl, mult_INR in E.
    assert (A : INR l - INR m = INR (S (l - S m))) by (rewrite <- minus_INR by lia; f_equal; lia). rewrite A in E. assert (B : INR (S (l + m)) = INR l + INR (S m)) by (rewrite <- plus_INR; f_equal; lia). rewrite B.
    pose proof (INR_fact_neq_0 (l - S m)). pose proof (INR_fact_neq_0 m). pose proof (not_0_INR (S m) ltac:(lia)). pose proof (not_0_INR (S (l - S m)) ltac:(lia)). pose proof (pow_nonzero 2 m ltac:(lra)).
    assert (F : 2 * INR (S m) * V l (S m) 1 = (INR l + INR (S m)) * INR (S (l - S m)) * (V l 0 1 * (INR (fact (l + m)) / (INR (S (l - S m)) * INR (fact (l - S m)) * INR (fact m) * 2 ^ m)))) by lra.
    apply (Rmult_eq_reg_l (2 * INR (S m))); [|apply Rmult_integral_contrapositive_currified; [lra|assumption]]. rewrite F. cbn [pow]. field. auto. }
  assert (C : V l 0 1 = 2 ^ l * INR (fact l)).
  { pose proof (G l (le_n l)) as E. destruct (V_lead l l (le_n l)) as (g & (c & Lc & Ec) & Eg). rewrite Eg, Ec in E. destruct c; [|cbn in Lc; lia]. rewrite Nat.sub_diag in E. cbn [fact INR pow RadialModel.poly_at] in E. replace (l + l)%nat with (2 * l)%nat in E by lia.
    pose proof (INR_fact_neq_0 (2 * l)). pose proof (INR_fact_neq_0 l). pose proof (pow_nonzero 2 l ltac:(lra)). apply (Rmult_eq_reg_r (INR (fact (2 * l)) / (INR (fact l) * 2 ^ l))).
    2:{ apply Rmult_integral_contrapositive_currified; [assumption|]. apply Rinv_neq_0_compat. apply Rmult_integral_contrapositive_currified; assumption. }
    transitivity (INR (fact (2 * l)) : R); [|field; split; assumption]. rewrite Rmult_1_l in E. rewrite <- E. field. }
  rewrite (G m Hm), C. reflexivity.
Qed.

(* the normalised meridian functions *)
Definition c4 (l : nat) : R := sqrt ((2 * INR l + 1) / (4 * PI)).
Lemma c4_pos l : 0 < c4 l. Proof. apply sqrt_lt_R0, pos4. Qed.
Lemma nlm_step l m : (m < l)%nat -> nlm l (S m) * ladn (2 * l) (l + m) = nlm l m.
Proof.
  intros H. unfold nlm, ladn. replace (2 * l - (l + m))%nat with (l - m)%nat by lia. replace (l - m)%nat with (S (l - S m)) by lia. replace (l + S m)%nat with (S (l + m)) by lia. replace (l + m + 1)%nat with (S (l + m)) by lia.
  assert (Ff : 2 ^ l * INR (fact l) <> 0) by (apply Rmult_integral_contrapositive_currified; [apply pow_nonzero; lra|apply INR_fact_neq_0]).
  unfold Rdiv at 1. rewrite Rmult_assoc, (Rmult_comm (/ _)), <- Rmult_assoc. fold (Rdiv (sqrt ((2 * INR l + 1) / (4 * PI) * (INR (fact (l - S m)) / INR (fact (S (l + m))))) * sqrt (INR (S (l - S m)) * INR (S (l + m)))) (2 ^ l * INR (fact l))). f_equal.
  pose proof (pos4 l) as Pf. pose proof (INR_fact_lt_0 (l - S m)). pose proof (INR_fact_lt_0 (S (l + m))). pose proof (INR_fact_lt_0 (l + m)). pose proof (lt_0_INR (S (l + m)) ltac:(lia)).
  rewrite <- sqrt_mult_alt by (apply Rmult_le_pos; [lra|apply Rlt_le, Rdiv_lt_0_compat; assumption]). f_equal. rewrite (fact_simpl (l - S m)), (fact_simpl (l + m)), !mult_INR. field. pose proof PI_RGT_0. repeat split; lra.
Qed.
Lemma nlm_0 l : nlm l 0 * (2 ^ l * INR (fact l)) = c4 l.
Proof.
  unfold nlm, c4. rewrite Nat.sub_0_r, Nat.add_0_r. pose proof (INR_fact_neq_0 l). pose proof (pow_nonzero 2 l ltac:(lra)). replace ((2 * INR l + 1) / (4 * PI) * (INR (fact l) / INR (fact l))) with ((2 * INR l + 1) / (4 * PI)) by (field; split; [assumption|apply Rgt_not_eq, PI_RGT_0]). field. split; assumption.
Qed.
Definition h (l m : nat) (b : R) : R := nlm l m * (sin b ^ m * V l m (cos b)).
Lemma der_sin_pow m (b : R) : is_derive (fun t => sin t ^ S m) b (INR (S m) * sin b ^ m * cos b).
Proof.
  apply is_derive_Reals. exact (derivable_pt_lim_comp sin (fun y => y ^ S m) b _ _ (derivable_pt_lim_sin b) (derivable_pt_lim_pow (sin b) (S m))).
Qed.
Lemma der_V_cos l m (b : R) : is_derive (fun t => V l m (cos t)) b (V l (S m) (cos b) * - sin b).
Proof.
  apply is_derive_Reals. pose proof (V_der l m (cos b)) as Q. apply is_derive_Reals in Q. exact (derivable_pt_lim_comp cos (V l m) b _ _ (derivable_pt_lim_cos b) Q).
Qed.
Lemma h_der_0 l (b : R) : (0 < l)%nat -> is_derive (h l 0) b (- ladn (2 * l) l * h l 1 b).
Proof.
  intros H. apply (der_ext (fun t => nlm l 0 * V l 0 (cos t))); [intros; unfold h; cbn [pow]; ring|]. eapply der_eq; [|apply der_scal, der_V_cos]. pose proof (nlm_step l 0 H) as E. rewrite Nat.add_0_r in E. rewrite <- E. unfold h. cbn [pow]. ring.
Qed.
Lemma h_der_S l m (b : R) : (S m <= l)%nat -> is_derive (h l (S m)) b (- (1 / 2 * (if (S m <? l)%nat then ladn (2 * l) (l + S m) else 0) * h l (S (S m)) b) + 1 / 2 * ladn (2 * l) (l + m) * h l m b).
Proof.
  intros H. unfold h at 1. eapply der_eq; [|apply der_scal; apply (der_mult (fun t => sin t ^ S m) (fun t => V l (S m) (cos t))); [apply der_sin_pow|apply der_V_cos]].
  pose proof (V_rec l m (cos b)) as E. assert (C : 1 - cos b ^ 2 = sin b ^ 2) by (pose proof (sin2_cos2 b); unfold Rsqr in *; nra). rewrite C in E.
  assert (A : (if (S m <? l)%nat then ladn (2 * l) (l + S m) else 0) * h l (S (S m)) b = nlm l (S m) * (sin b ^ S (S m) * V l (S (S m)) (cos b))).
  { unfold h. destruct (Nat.ltb_spec (S m) l) as [L|L]; [rewrite <- (nlm_step l (S m) L); ring|]. rewrite (V_zero l (S (S m))) by lia. ring. }
  assert (B : ladn (2 * l) (l + m) * h l m b = nlm l (S m) * ((INR l + INR (S m)) * (INR l - INR m)) * (sin b ^ m * V l m (cos b))).
  { unfold h. rewrite <- (nlm_step l m) by lia. transitivity (nlm l (S m) * (ladn (2 * l) (l + m) * ladn (2 * l) (l + m)) * (sin b ^ m * V l m (cos b))); [ring|]. f_equal. f_equal. unfold ladn. rewrite sqrt_sqrt by (apply Rmult_le_pos; apply pos_INR).
    replace (2 * l - (l + m))%nat with (l - m)%nat by lia. rewrite minus_INR by lia. replace (l + m + 1)%nat with (l + S m)%nat by lia. rewrite plus_INR. ring. }
  match goal with |- _ = - (1 / 2 * ?X * ?p) + 1 / 2 * ?Z * ?q => transitivity (- (1 / 2 * (X * p)) + 1 / 2 * (Z * q)); [rewrite A, B|ring] end.
  assert (E2 : (INR l + INR (S m)) * (INR l - INR m) * V l m (cos b) = 2 * INR (S m) * cos b * V l (S m) (cos b) - sin b ^ 2 * V l (S (S m)) (cos b)) by lra.
  transitivity (- (1 / 2 * (nlm l (S m) * (sin b ^ S (S m) * V l (S (S m)) (cos b)))) + 1 / 2 * (nlm l (S m) * sin b ^ m * ((INR l + INR (S m)) * (INR l - INR m) * V l m (cos b)))); [|ring]. rewrite E2. cbn [pow]. field.
Qed.
Lemma gen_x_sum l (f : nat -> R) k : (k < 2 * l + 1)%nat -> rsum (2 * l + 1) (fun j => generators l 0 k j * f j) = (if (S k <? 2 * l + 1)%nat then x0_up l k * f (S k) else 0) + (match k with O => 0 | S p => - x0_up l p * f p end).
Proof.
  intros Hk. rewrite (rsum_ext _ _ (fun j => (if (j =? S k)%nat then x0_up l k * f j else 0) + (match k with O => 0 | S p => if (j =? p)%nat then - x0_up l p * f j else 0 end))).
  - rewrite rsum_plus. f_equal.
    + destruct (Nat.ltb_spec (S k) (2 * l + 1)) as [L|L]; [now rewrite (rsum_delta _ (S k) (fun j => x0_up l k * f j))|]. apply rsum_zero. intros j Hj. rewrite (proj2 (Nat.eqb_neq j (S k))) by lia. reflexivity.
    + destruct k as [|p]; [apply rsum_zero; reflexivity|]. now rewrite (rsum_delta _ p (fun j => - x0_up l p * f j)) by lia.
  - intros j Hj. rewrite generators_x by assumption. destruct (Nat.eqb_spec j (S k)) as [->|N].
    + destruct k as [|p]; [ring|]. rewrite (proj2 (Nat.eqb_neq (S (S p)) p)) by lia. ring.
    + destruct k as [|p]; [rewrite (proj2 (Nat.eqb_neq 0 (S j))) by lia; ring|]. destruct (Nat.eqb_spec j p) as [->|N']; [rewrite Nat.eqb_refl; ring|]. rewrite (proj2 (Nat.eqb_neq (S p) (S j))) by lia. ring.
Qed.
Definition mer (l k : nat) (b : R) : R := if (k <? l)%nat then 0 else if (k =? l)%nat then h l 0 b else sqrt 2 * h l (k - l) b.
Lemma mer_low l k b : (k < l)%nat -> mer l k b = 0. Proof. intros H. unfold mer. now rewrite (proj2 (Nat.ltb_lt k l) H). Qed.
Lemma mer_mid l b : mer l l b = h l 0 b. Proof. unfold mer. rewrite Nat.ltb_irrefl, Nat.eqb_refl. reflexivity. Qed.
Lemma mer_up l m b : mer l (l + S m) b = sqrt 2 * h l (S m) b.
Proof. unfold mer. rewrite (proj2 (Nat.ltb_ge (l + S m) l)), (proj2 (Nat.eqb_neq (l + S m) l)) by lia. do 2 f_equal. lia. Qed.
Lemma x0_mid l : x0_up l l = - (1 / sqrt 2 * ladn (2 * l) l).
Proof. unfold x0_up. rewrite (proj2 (Nat.ltb_ge (S l) l)), (proj2 (Nat.eqb_neq (S l) l)), Nat.eqb_refl by lia. reflexivity. Qed.
Lemma x0_high l m : x0_up l (l + S m) = - (1 / 2 * ladn (2 * l) (l + S m)).
Proof. unfold x0_up. rewrite (proj2 (Nat.ltb_ge (S (l + S m)) l)), (proj2 (Nat.eqb_neq (S (l + S m)) l)), (proj2 (Nat.eqb_neq (l + S m) l)) by lia. reflexivity. Qed.
Lemma x0_below l p : S p = l -> x0_up l p = 0.
Proof. intros <-. unfold x0_up. rewrite Nat.ltb_irrefl, Nat.eqb_refl. reflexivity. Qed.
Lemma mer_der l (b : R) k : (k < 2 * l + 1)%nat -> is_derive (mer l k) b (rsum (2 * l + 1) (fun j => generators l 0 k j * mer l j b)).
Proof.
  intros Hk. rewrite (gen_x_sum l (fun j => mer l j b)) by exact Hk. assert (S2 : sqrt 2 <> 0) by (apply Rgt_not_eq, sqrt_lt_R0; lra). assert (S22 : sqrt 2 * sqrt 2 = 2) by (apply sqrt_sqrt; lra).
  destruct (Nat.lt_trichotomy k l) as [L|[->|L]].
  - apply (der_ext (fun _ => 0)); [intros t; symmetry; now apply mer_low|]. eapply der_eq; [|apply der_const].
    rewrite (proj2 (Nat.ltb_lt (S k) (2 * l + 1))) by lia. replace (x0_up l k * mer l (S k) b) with 0. 2:{ destruct (Nat.eq_dec (S k) l) as [E|N]; [rewrite x0_below by exact E; ring|rewrite mer_low by lia; ring]. }
    destruct k as [|p]; [ring|]. rewrite (mer_low l p) by lia. ring.
  - apply (der_ext (h l 0)); [intros t; symmetry; apply mer_mid|]. destruct l as [|l].
    + apply (der_ext (fun t => nlm 0 0 * V 0 0 1)). { intros t. unfold h. cbn [pow]. rewrite Rmult_1_l. apply (f_equal (fun z => nlm 0 0 * z)). rewrite (lead_0 _ _ (V_lead 0 0 (le_n 0)) 1). symmetry. apply (lead_0 _ _ (V_lead 0 0 (le_n 0))). }
      eapply der_eq; [|apply der_const]. cbn. ring.
    + eapply der_eq; [|apply h_der_0; lia]. rewrite (proj2 (Nat.ltb_lt (S (S l)) (2 * S l + 1))) by lia. rewrite x0_mid, (x0_below (S l) l) by reflexivity. replace (S (S l)) with (S l + 1)%nat by lia. rewrite mer_up. field; try exact S2.
  - assert (Ek : exists m, k = (l + S m)%nat) by (exists (k - S l)%nat; lia). destruct Ek as [m ->]. clear L. apply (der_ext (fun t => sqrt 2 * h l (S m) t)); [intros t; symmetry; apply mer_up|]. eapply der_eq; [|apply der_scal, h_der_S; lia].
    rewrite x0_high. replace (S (l + S m) <? 2 * l + 1)%nat with (S m <? l)%nat by (destruct (Nat.ltb_spec (S m) l), (Nat.ltb_spec (S (l + S m)) (2 * l + 1)); lia).
    assert (T : match (l + S m)%nat with O => 0 | S p => - x0_up l p * mer l p b end = - x0_up l (l + m) * mer l (l + m) b) by (rewrite Nat.add_succ_r; reflexivity). rewrite T. clear T.
    replace (S (l + S m)) with (l + S (S m))%nat by lia. rewrite mer_up.
    assert (T : - x0_up l (l + m) * mer l (l + m) b = sqrt 2 * (1 / 2 * ladn (2 * l) (l + m) * h l m b)).
    { destruct m as [|m]; [rewrite Nat.add_0_r, x0_mid, mer_mid|rewrite x0_high, mer_up; ring]. transitivity (/ sqrt 2 * ladn (2 * l) l * h l 0 b); [field; exact S2|]. replace (/ sqrt 2) with (sqrt 2 * (1 / 2)); [ring|]. apply (Rmult_eq_reg_l (sqrt 2)); [|exact S2]. rewrite Rinv_r by exact S2. rewrite <- Rmult_assoc, S22. field. }
    rewrite T. destruct (S m <? l)%nat; ring.
Qed.
Definition vec3 (a b c : R) : nat -> R := fun i => match i with 0%nat => a | 1%nat => b | _ => c end.
Lemma P_meridian l b k : (k < 2 * l + 1)%nat -> c4 l * P l (vec3 0 (cos b) (sin b)) k = mer l k b.
Proof.
  revert b k. apply (ode_unique (2 * l + 1) (generators l 0) (fun k b => c4 l * P l (vec3 0 (cos b) (sin b)) k) (mer l) 0).
  - intros i j Hi Hj. now apply generators_antisym.
  - intros t k Hk. eapply der_eq; [|apply der_scal; apply (P_along 0 (fun b => vec3 0 (cos b) (sin b)) t); [|exact Hk]].
    + rewrite <- rsum_scal. apply rsum_ext. intros; ring.
    + intros i Hi. cbn [rsum vec3]. rewrite !generators_l1 by lia. destruct i as [|[|[|i]]]; [| | |lia]; cbn [eps vec3].
      * eapply der_eq; [|apply der_const]. ring.
      * eapply der_eq; [|apply is_derive_Reals, derivable_pt_lim_cos]. ring.
      * eapply der_eq; [|apply is_derive_Reals, derivable_pt_lim_sin]. ring.
  - intros t k Hk. now apply mer_der.
  - intros k Hk. rewrite (P_ext l _ pole); [|intros i Hi; destruct i as [|[|[|i]]]; [| | |lia]; unfold pole; cbn [vec3 Nat.eqb]; rewrite ?cos_0, ?sin_0; reflexivity|exact Hk]. rewrite P_pole by exact Hk.
    unfold mer. destruct (Nat.ltb_spec k l); [rewrite (proj2 (Nat.eqb_neq k l)) by lia; ring|]. destruct (Nat.eqb_spec k l) as [->|N].
    + unfold h. rewrite cos_0, V_at_1 by lia. rewrite Nat.add_0_r, Nat.sub_0_r. cbn [pow fact INR]. rewrite <- (nlm_0 l). field. apply INR_fact_neq_0.
    + unfold h. rewrite sin_0, pow_i by lia. ring.
Qed.
Lemma sin_acos y : -1 <= y <= 1 -> sin (acos y) = sqrt (1 - y ^ 2).
Proof. intros H. rewrite Ratan.sin_acos by exact H. f_equal. unfold Rsqr. ring. Qed.
Lemma trig_der m (a : R) : is_derive (trig m) a (- IZR m * trig (- m) a).
Proof.
  destruct m as [|p|p]; cbn [Z.opp trig].
  - eapply der_eq; [|apply der_const]. ring.
  - eapply der_eq; [|apply der_scal, is_derive_Reals; apply (derivable_pt_lim_comp (fun a => IZR (Z.pos p) * a) cos); [|apply derivable_pt_lim_cos]; exact (derivable_pt_lim_scal _ _ _ _ (derivable_pt_lim_id a))]. change (- Z.neg p)%Z with (Z.pos p). ring.
  - eapply der_eq; [|apply der_scal, is_derive_Reals; apply (derivable_pt_lim_comp (fun a => IZR (- Z.neg p) * a) sin); [|apply derivable_pt_lim_sin]; exact (derivable_pt_lim_scal _ _ _ _ (derivable_pt_lim_id a))]. change (- Z.neg p)%Z with (Z.pos p). change (Z.neg p) with (- Z.pos p)%Z. rewrite opp_IZR. ring.
Qed.
(* the values on the unit sphere, in spherical coordinates about the y axis *)
Theorem P_sphere l y a k : -1 <= y <= 1 -> (k < 2 * l + 1)%nat -> c4 l * P l (vec3 (sqrt (1 - y ^ 2) * sin a) y (sqrt (1 - y ^ 2) * cos a)) k = Ylm l (Z.of_nat k - Z.of_nat l) y a.
Proof.
  intros Hy. revert a k. set (s := sqrt (1 - y ^ 2)).
  apply (ode_unique (2 * l + 1) (generators l 1) (fun k a => c4 l * P l (vec3 (s * sin a) y (s * cos a)) k) (fun k a => Ylm l (Z.of_nat k - Z.of_nat l) y a) 0).
  - intros i j Hi Hj. now apply generators_antisym.
  - intros t k Hk. eapply der_eq; [|apply der_scal; apply (P_along 1 (fun a => vec3 (s * sin a) y (s * cos a)) t); [|exact Hk]].
    + rewrite <- rsum_scal. apply rsum_ext. intros; ring.
    + intros i Hi. cbn [rsum vec3]. rewrite !generators_l1 by lia. destruct i as [|[|[|i]]]; [| | |lia]; cbn [eps vec3].
      * eapply der_eq; [|apply der_scal, is_derive_Reals, derivable_pt_lim_sin]. ring.
      * eapply der_eq; [|apply der_const]. ring.
      * eapply der_eq; [|apply der_scal, is_derive_Reals, derivable_pt_lim_cos]. ring.
  - intros t k Hk. unfold Ylm at 1. eapply der_eq; [|apply der_scal, trig_der].
    rewrite (rsum_ext _ _ (fun j => if (j =? 2 * l - k)%nat then (INR l - INR k) * Ylm l (Z.of_nat j - Z.of_nat l) y t else 0)) by (intros j Hj; rewrite generators_y by assumption; destruct (j =? 2 * l - k)%nat; ring).
    rewrite (rsum_delta _ (2 * l - k) (fun j => (INR l - INR k) * Ylm l (Z.of_nat j - Z.of_nat l) y t)) by lia. unfold Ylm. replace (Z.of_nat (2 * l - k) - Z.of_nat l)%Z with (- (Z.of_nat k - Z.of_nat l))%Z by lia.
    replace (Z.abs_nat (- (Z.of_nat k - Z.of_nat l))) with (Z.abs_nat (Z.of_nat k - Z.of_nat l)) by lia. rewrite minus_IZR, <- !INR_IZR_INZ. ring.
  - intros k Hk. rewrite (P_ext l _ (vec3 0 (cos (acos y)) (sin (acos y)))); [|intros i Hi; destruct i as [|[|[|i]]]; [| | |lia]; cbn [vec3]; rewrite ?sin_0, ?cos_0, ?cos_acos, ?sin_acos by exact Hy; fold s; ring|exact Hk].
    rewrite P_meridian by exact Hk. unfold mer, Ylm, h. rewrite cos_acos, sin_acos by exact Hy. fold s. rewrite sh_beta_V. fold s. rewrite (proj2 (Nat.leb_le (Z.abs_nat (Z.of_nat k - Z.of_nat l)) l)) by lia.
    destruct (Nat.ltb_spec k l) as [L|L].
    + destruct (Z.of_nat k - Z.of_nat l)%Z eqn:E; try lia. cbn [trig]. rewrite Rmult_0_r, sin_0. ring.
    + destruct (Nat.eqb_spec k l) as [->|N]; [rewrite Z.sub_diag; change (Z.abs_nat 0) with 0%nat; cbn [trig]; ring|]. replace (Z.abs_nat (Z.of_nat k - Z.of_nat l)) with (k - l)%nat by lia. destruct (Z.of_nat k - Z.of_nat l)%Z eqn:E; try lia. cbn [trig]. rewrite Rmult_0_r, cos_0. ring.
Qed.
