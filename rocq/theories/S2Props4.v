(* C44: from_function samples at the points of the grid; division by a scalar. *)
From Coq Require Import Reals Lra Lia List Arith.
From Coquelicot Require Import Coquelicot.
From Verif Require Import PyBase IrrepsModel ArrayModel LeadModel SumR S2Model S2Proofs S2Proofs2 S2Props S2Props2 SHProps S2PointModel S2PointProps.
Import ListNotations.
Local Open Scope R_scope.

(* the point of the sphere at height y = cos(beta) and longitude alpha, with polar axis y as everywhere in the library *)
Definition sphere_point (v : R * R * R) (y alpha : R) : Prop := let '(a, b, c) := v in coordinates [a; b; c] 1 y alpha.
Theorem C44_from_function lg f B A q pv pa : (q = Soft -> (B mod 2 = 0)%nat) ->
  exists s, from_function lg f B A q pv pa = Ok s /\ g_lead s = [] /\ g_beta s = B /\ g_alpha s = A /\ g_quad s = q /\ g_pval s = pv /\ g_parg s = pa /\
  forall u v w, (u < B)%nat -> (v < A)%nat -> sphere_point w (height lg q B u) (2 * PI * INR v / INR A) -> g_val s [] u v = f w.
Proof.
  intros Q. destruct (quadrature_ok lg q B Q) as (r & E & R1 & R2). unfold from_function. rewrite E. cbn [bind]. eexists. split; [reflexivity|]. do 6 (split; [reflexivity|]).
  intros u v [[a b] c] Hu Hv (_ & _ & Hw). cbn [g_val]. unfold grid_vector. rewrite R1. replace (2 * PI * INR v / INR A) with (alpha_grid A v) in Hw by (unfold alpha_grid, Rdiv; ring).
  injection Hw as -> -> ->. rewrite !Rmult_1_l. reflexivity.
Qed.
Theorem C44_from_function_rejects lg f B A pv pa : (B mod 2 <> 0)%nat -> from_function lg f B A Soft pv pa = Err AssertionError.
Proof. intros H. unfold from_function, quadrature_weights. destruct (Nat.eqb_spec (B mod 2) 0); [contradiction|reflexivity]. Qed.
Theorem C44_division lg f c B A q pv pa s : from_function lg f B A q pv pa = Ok s ->
  exists u, sig_div s c = Ok u /\ exists w, from_function lg (fun v => f v / c) B A q pv pa = Ok w /\ agree_on_grid u w.
Proof.
  intros E. destruct (C44_scaling lg f (1 / c) B A q pv pa s E) as (u & U & (w & Ew & G) & _). exists u. split; [exact U|]. unfold from_function in *. destruct (quadrature_weights lg q B) as [r|]; [|discriminate]. cbn [bind] in *.
  eexists. split; [reflexivity|]. injection Ew as <-. destruct G as (G1 & G2 & G3 & G4 & G5 & G6 & G7). unfold agree_on_grid. cbn [g_lead g_beta g_alpha g_quad g_pval g_parg g_val] in *. do 6 (split; [assumption|]).
  intros i b a V Hb Ha. rewrite G7 by assumption. unfold Rdiv. rewrite Rmult_1_l. reflexivity.
Qed.
Example C44_from_function_nonvacuous lg : exists s, from_function lg (fun '(a, b, c) => b) 2 3 Soft Even Odd = Ok s /\ g_val s [] 0 0 = - cos ((INR 0 + 1 / 2) / INR 2 * PI).
Proof. eexists. split; [reflexivity|]. reflexivity. Qed.
