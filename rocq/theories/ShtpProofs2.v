(* The parts computed by shtp commute with every orthogonal matrix that fixes the pole. *)
From Coq Require Import Reals ZArith Arith Lia Lra Bool List.
From Verif Require Import PyBase IrrepsModel IrrepsProofs ArrayModel LeadModel SumR EntryProofs CGModel CGProofs8 CGProofs10 TpshCG.
From Verif Require Import RotationModel RotationProofs RotationProofs2 RotationProofs3 WignerModel WignerProofs WignerProofs2 S2Model TpshModel ShtpModel ShtpProofs.
Import ListNotations.
Open Scope R_scope.

Lemma pR_pow p n : pR (ppow p n) = pR p ^ n.
Proof. induction n as [|n IH]; [reflexivity|]. cbn [ppow pow]. now rewrite pR_mul, IH. Qed.
Lemma pR_sq p : pR p * pR p = 1. Proof. destruct p; cbn; ring. Qed.
Lemma pow_mod2 p n : pR p ^ (n mod 2) = pR p ^ n.
Proof. rewrite (Nat.div_mod n 2) at 2 by lia. rewrite pow_add, pow_mult. replace (pR p ^ 2) with 1 by (destruct p; cbn; ring). rewrite pow1. ring. Qed.
Lemma pR_inj p q : pR p = pR q -> p = q. Proof. destruct p, q; cbn; intros H; try reflexivity; exfalso; lra. Qed.
Lemma parity_eqb_R p q : parity_eqb p q = true <-> pR p = pR q.
Proof. destruct p, q; cbn; split; intros H; try reflexivity; try discriminate; exfalso; lra. Qed.
(* the parts are those whose parity is that of the product *)
Lemma has_part_iff sym p a b : has_part sym p a b = true <->
  pR p ^ (ir_l a + ir_l b) * (if sym then 1 else pR p) = pR (ir_p a) * pR (ir_p b) /\ (0 < nchan sym (ir_l a) (ir_l b))%nat.
Proof.
  unfold has_part, nchan. cbv zeta. destruct sym.
  - rewrite parity_eqb_R, pR_pow, pow_mod2, pR_mul, Rmult_1_r. split; [intros H; split; [exact H|lia]|tauto].
  - rewrite andb_true_iff, parity_eqb_R, pR_pow, pow_mod2, pR_mul, Nat.ltb_lt, pow_add, pow_1. tauto.
Qed.
Definition fixes (p : parity) (h : mat) : Prop := orthogonal3 h /\ mapply (proper h) (V 0 1 0) = V 0 (chi h p) 0.
Lemma band_half sym lx lz c j i : side lz j * band sym lx lz c j i = (if sym then 1 else -1) * (band sym lx lz c j i * side lx i).
Proof.
  unfold band, side. destruct sym.
  - destruct (Nat.leb_spec lz j), (Nat.leb_spec lx i); nb; ring.
  - destruct (Nat.leb_spec lz j), (Nat.leb_spec lx i); nb; ring.
Qed.
Lemma band_commutes sym p a b h c j i : fixes p h -> has_part sym p a b = true -> (c < nchan sym (ir_l a) (ir_l b))%nat -> (j < ir_dim b)%nat -> (i < ir_dim a)%nat ->
  rsum (ir_dim b) (fun k => D_from_matrix h b j k * band sym (ir_l a) (ir_l b) c k i) = rsum (ir_dim a) (fun k => band sym (ir_l a) (ir_l b) c j k * D_from_matrix h a k i).
Proof.
  intros [O F] HP Hc Hj Hi. apply has_part_iff in HP as [HP _]. set (lx := ir_l a) in *. set (lz := ir_l b) in *. assert (Da : ir_dim a = (2 * lx + 1)%nat) by reflexivity. assert (Db : ir_dim b = (2 * lz + 1)%nat) by reflexivity.
  pose proof (proper_rotation h O) as Rp. rewrite Da in Hi. rewrite Db in Hj.
  transitivity (chi h (ir_p b) * rsum (2 * lz + 1) (fun k => W (proper h) lz j k * band sym lx lz c k i)).
  { rewrite <- rsum_scal, Db. apply rsum_ext. intros k Hk. rewrite D_matrix_eq by (rewrite ?Db; assumption). fold lz. ring. }
  transitivity (chi h (ir_p a) * rsum (2 * lx + 1) (fun k => band sym lx lz c j k * W (proper h) lx k i)).
  2: { rewrite <- rsum_scal, Da. apply rsum_ext. intros k Hk. rewrite D_matrix_eq by (rewrite ?Da; assumption). fold lx. ring. }
  destruct (Req_dec (chi h p) 1) as [C|C].
  - rewrite C in F. destruct (fixes_pole (proper h) Rp F) as [t ->].
    assert (Ec : chi h (ir_p b) = chi h (ir_p a)).
    { unfold chi in *. destruct (sg h); [|reflexivity]. rewrite C in HP. rewrite pow1 in HP. replace (if sym then 1 else 1) with 1 in HP by (destruct sym; reflexivity). assert (E : pR (ir_p a) = pR (ir_p b)); [|now rewrite E]. transitivity (pR (ir_p a) * (pR (ir_p b) * pR (ir_p b))); [rewrite pR_sq; ring|]. rewrite <- Rmult_assoc, <- HP. ring. }
    rewrite Ec. f_equal. rewrite <- (rsum_ext _ (fun k => rot_y lz t j k * band sym lx lz c k i)) by (intros k Hk; now rewrite W_matrix_y). rewrite band_rot_y by assumption. apply rsum_ext. intros k Hk. now rewrite W_matrix_y.
  - unfold chi in C, F |- *. destruct (sg h) eqn:Es; [|lra]. assert (P1 : pR p = -1) by (destruct p; cbn in *; lra). rewrite P1 in F. destruct (reverses_pole (proper h) Rp F) as [t ->].
    assert (Wl : forall l x y, (x < 2 * l + 1)%nat -> (y < 2 * l + 1)%nat -> W (mmul (matrix_y t) half_x) l x y = rot_y l t x y * ((-1) ^ l * side l y)).
    { intros l x y Hx Hy. rewrite W_mul by (try apply half_x_rotation; try apply rotation_y; assumption).
      unfold CGModel.mmul. rewrite (rsum_pick _ y); [|exact Hy|intros k Hk N; rewrite W_half by assumption; destruct (Nat.eqb_spec k y); [lia|ring]]. rewrite W_half, Nat.eqb_refl by assumption. rewrite W_matrix_y by assumption. ring. }
    rewrite (rsum_ext _ _ (fun k => ((-1) ^ lz * (if sym then 1 else -1) * side lx i) * (rot_y lz t j k * band sym lx lz c k i))) by (intros k Hk; rewrite Wl by assumption; transitivity (rot_y lz t j k * (-1) ^ lz * (side lz k * band sym lx lz c k i)); [ring|rewrite band_half; ring]).
    rewrite rsum_scal, band_rot_y by assumption. rewrite <- !rsum_scal. apply rsum_ext. intros k Hk. rewrite Wl by assumption. rewrite P1 in HP. 
    assert (E : pR (ir_p b) * (-1) ^ lz * (if sym then 1 else -1) = pR (ir_p a) * (-1) ^ lx).
    { assert (Q : (-1) ^ lz * (-1) ^ lz = 1) by (rewrite <- pow_add; replace (lz + lz)%nat with (2 * lz)%nat by lia; rewrite pow_mult; replace ((-1) ^ 2) with 1 by ring; apply pow1).
      assert (Q' : (-1) ^ lx * (-1) ^ lx = 1) by (rewrite <- pow_add; replace (lx + lx)%nat with (2 * lx)%nat by lia; rewrite pow_mult; replace ((-1) ^ 2) with 1 by ring; apply pow1).
      rewrite pow_add in HP. transitivity ((-1) ^ lx * pR (ir_p b) * ((-1) ^ lx * (-1) ^ lz * (if sym then 1 else -1))); [transitivity (((-1) ^ lx * (-1) ^ lx) * (pR (ir_p b) * (-1) ^ lz * (if sym then 1 else -1))); [rewrite Q'; ring|ring]|]. rewrite HP. transitivity (pR (ir_p a) * (-1) ^ lx * (pR (ir_p b) * pR (ir_p b))); [ring|rewrite pR_sq; ring]. }
    transitivity ((pR (ir_p b) * (-1) ^ lz * (if sym then 1 else -1)) * (side lx i * (band sym lx lz c j k * rot_y lx t k i))); [ring|]. rewrite E. ring.
Qed.
