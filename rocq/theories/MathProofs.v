(* limit_denominator: continued fractions and best approximation *)
From Coq Require Import Reals Lra Lia ZArith Znumtheory.
From Verif Require Import PyBase ArrayModel LeadModel MathModel.
Open Scope Z_scope.

(* what holds at every turn for an element that has a denominator above the bound *)
Record cf_inv (maxd n0 d0 : Z) (s : cf) : Prop := {
  ci_d0 : cf_d0 s = d0;
  ci_n : n0 = cf_p1 s * cf_n s + cf_p0 s * cf_d s;
  ci_d : d0 = cf_q1 s * cf_n s + cf_q0 s * cf_d s;
  ci_det : cf_p1 s * cf_q0 s - cf_p0 s * cf_q1 s = 1 \/ cf_p1 s * cf_q0 s - cf_p0 s * cf_q1 s = -1;
  ci_dpos : 0 < cf_d s;
  ci_q : (cf_q0 s = 1 /\ cf_q1 s = 0 /\ cf_p0 s = 0 /\ cf_p1 s = 1) \/ (0 <= cf_q0 s /\ 0 < cf_q1 s <= maxd /\ cf_q0 s <= cf_q1 s /\ cf_d s < cf_n s);
  ci_gcd : Z.gcd (cf_n s) (cf_d s) = 1 }.

Lemma cf_start_inv maxd n d : 0 < d -> Z.gcd n d = 1 -> cf_inv maxd n d (cf_start n d).
Proof. intros Hd G. constructor; unfold cf_start; cbn [cf_p0 cf_q0 cf_p1 cf_q1 cf_n cf_d cf_d0]; try lia; auto. Qed.

Lemma floordiv_pos n d : 0 < d -> floordiv n d = n / d.
Proof. intros H. unfold floordiv. destruct (Z.eqb_spec d 0); [lia|reflexivity]. Qed.

Lemma cf_step_inv maxd n0 d0 s : 1 <= maxd < d0 -> cf_inv maxd n0 d0 s -> cf_stop maxd s = false -> cf_inv maxd n0 d0 (cf_step maxd s) /\ 0 < cf_d (cf_step maxd s) < cf_d s.
Proof.
  intros Hm I Hs. destruct I as [I1 I2 I3 I4 I5 I6 I7]. unfold cf_step. rewrite Hs. unfold cf_stop in Hs. apply orb_false_iff in Hs as [S1 S2]. apply Z.ltb_ge in S1. apply Z.leb_gt in S2.
  unfold cf_a in *. rewrite floordiv_pos in * by exact I5. set (a := cf_n s / cf_d s) in *. pose proof (Z.div_mod (cf_n s) (cf_d s) ltac:(lia)) as DM. pose proof (Z.mod_pos_bound (cf_n s) (cf_d s) I5) as MB. fold a in DM.
  set (r := cf_n s mod cf_d s) in *. assert (R0 : cf_n s - a * cf_d s = r) by lia.
  assert (Ha : (cf_q1 s = 0 /\ cf_q0 s = 1 /\ cf_p0 s = 0 /\ cf_p1 s = 1) \/ (1 <= a /\ 0 <= cf_q0 s /\ 0 < cf_q1 s <= maxd)).
  { destruct I6 as [(Q1 & Q2 & Q3)|(Q1 & Q2 & Q3 & Q4)]; [left; auto|right]. split; [nia|auto]. }
  assert (D' : d0 = (cf_q0 s + a * cf_q1 s) * cf_d s + cf_q1 s * (cf_n s - a * cf_d s)) by (rewrite I3; ring).
  assert (G' : Z.gcd (cf_d s) r = 1). { unfold r. rewrite Z.gcd_comm. rewrite Z.gcd_mod by lia. rewrite Z.gcd_comm. exact I7. }
  assert (Hr : 0 < r).
  { destruct (Z.eq_dec r 0) as [E|N]; [|lia]. rewrite E in G'. rewrite Z.gcd_0_r in G'. assert (cf_d s = 1) by lia. rewrite R0, E in D'. nia. }
  cbn [cf_d]. rewrite R0. split; [|lia]. constructor; cbn [cf_p0 cf_q0 cf_p1 cf_q1 cf_n cf_d cf_d0].
  - exact I1.
  - rewrite I2, <- R0. ring.
  - rewrite I3, <- R0. ring.
  - destruct I4 as [I4|I4]; [right|left]; rewrite <- I4 || idtac; nia.
  - exact Hr.
  - right. destruct Ha as [(Q1 & Q2 & Q3)|(Q1 & Q2 & Q3)]; [rewrite Q1, Q2 in *; lia|]. split; [lia|]. split; [nia|]. split; [nia|lia].
  - rewrite R0 || idtac. exact G'.
Qed.

(* ---------- the loop ends, and treats the elements separately ---------- *)
Definition running (maxd : Z) (s : cf) : Prop := cf_stop maxd s = true \/ exists n0 d0, 1 <= maxd < d0 /\ cf_inv maxd n0 d0 s.
Lemma running_step maxd s : running maxd s -> running maxd (cf_step maxd s).
Proof.
  intros [H|(n0 & d0 & Hm & I)]; [left; unfold cf_step; rewrite H; exact H|]. destruct (cf_stop maxd s) eqn:E; [left; unfold cf_step; rewrite E; exact E|]. right. exists n0, d0. split; [exact Hm|]. apply cf_step_inv; assumption.
Qed.
Definition need (maxd : Z) (s : cf) : nat := if cf_stop maxd s then O else Z.to_nat (cf_d s).
Lemma need_step maxd s : running maxd s -> cf_stop maxd s = false -> (need maxd (cf_step maxd s) < need maxd s)%nat.
Proof.
  intros [H|(n0 & d0 & Hm & I)] E; [congruence|]. destruct (cf_step_inv maxd n0 d0 s Hm I E) as [_ D]. unfold need at 2. rewrite E. unfold need. destruct (cf_stop maxd (cf_step maxd s)); lia.
Qed.
Fixpoint turns (maxd : Z) (m : nat) (s : cf) : cf := match m with O => s | S m => turns maxd m (cf_step maxd s) end.
Lemma turns_stopped maxd m s : cf_stop maxd s = true -> turns maxd m s = s.
Proof. intros H. revert s H. induction m as [|m IH]; intros s H; [reflexivity|]. cbn [turns]. assert (E : cf_step maxd s = s) by (unfold cf_step; rewrite H; reflexivity). rewrite E. apply IH, H. Qed.
Lemma turns_add maxd m k s : turns maxd (m + k) s = turns maxd k (turns maxd m s).
Proof. revert s. induction m as [|m IH]; intros s; [reflexivity|]. cbn [turns Nat.add]. apply IH. Qed.
Lemma turns_stop maxd m s : running maxd s -> (need maxd s <= m)%nat -> cf_stop maxd (turns maxd m s) = true.
Proof.
  revert s. induction m as [|m IH]; intros s H Hn.
  - cbn [turns]. destruct (cf_stop maxd s) eqn:E; [reflexivity|]. pose proof (need_step maxd s H E). lia.
  - cbn [turns]. destruct (cf_stop maxd s) eqn:E.
    + assert (E' : cf_step maxd s = s) by (unfold cf_step; rewrite E; reflexivity). rewrite E', turns_stopped by exact E. exact E.
    + apply IH; [apply running_step, H|]. pose proof (need_step maxd s H E). lia.
Qed.
Lemma turns_enough maxd m k s : running maxd s -> (need maxd s <= m)%nat -> (need maxd s <= k)%nat -> turns maxd m s = turns maxd k s.
Proof.
  intros H Hm Hk. assert (W : forall a b, (need maxd s <= a)%nat -> (a <= b)%nat -> turns maxd b s = turns maxd a s).
  { intros a b Ha Hab. replace b with (a + (b - a))%nat by lia. rewrite turns_add. apply turns_stopped. apply turns_stop; assumption. }
  destruct (Nat.le_ge_cases m k); [symmetry|]; apply W; assumption.
Qed.
Lemma forallb_false {A} (f : A -> bool) l : forallb f l = false -> exists a, In a l /\ f a = false.
Proof. induction l as [|a l IH]; [discriminate|]. cbn. intros H. apply andb_false_iff in H as [H|H]; [exists a; auto|]. destruct (IH H) as (b & Hb & E). exists b. auto. Qed.
(* after the loop every element is where its own loop would have stopped *)
Lemma cf_loop_spec maxd fuel ss : (forall s, In s ss -> running maxd s /\ (need maxd s <= fuel)%nat) -> cf_loop fuel maxd ss = Some (map (turns maxd fuel) ss).
Proof.
  revert ss. induction fuel as [|fuel IH]; intros ss H.
  - cbn [cf_loop]. assert (E : forallb (cf_stop maxd) ss = true). { apply forallb_forall. intros s Hs. destruct (H s Hs) as [Hr Hn]. apply (turns_stop maxd 0 s Hr Hn). }
    rewrite E. f_equal. rewrite <- (map_id ss) at 1. apply map_ext_in. intros s Hs. reflexivity.
  - cbn [cf_loop]. destruct (forallb (cf_stop maxd) ss) eqn:E.
    + f_equal. rewrite <- (map_id ss) at 1. apply map_ext_in. intros s Hs. symmetry. apply turns_stopped. rewrite forallb_forall in E. apply E, Hs.
    + rewrite IH.
      * f_equal. rewrite map_map. reflexivity.
      * intros s' Hs'. apply in_map_iff in Hs' as (s & <- & Hs). destruct (H s Hs) as [Hr Hn]. split; [apply running_step, Hr|]. destruct (cf_stop maxd s) eqn:Q; [|pose proof (need_step maxd s Hr Q); lia]. unfold cf_step. rewrite Q. unfold need. rewrite Q. lia.
Qed.
Lemma turns_inv maxd n0 d0 m s : 1 <= maxd < d0 -> cf_inv maxd n0 d0 s -> cf_inv maxd n0 d0 (turns maxd m s).
Proof.
  intros Hm. revert s. induction m as [|m IH]; intros s I; [exact I|]. cbn [turns]. apply IH. destruct (cf_stop maxd s) eqn:E; [unfold cf_step; rewrite E; exact I|]. apply cf_step_inv; assumption.
Qed.

(* ---------- best approximation ---------- *)
(* n/d is at least as close to n0/d0 as a/b *)
Definition closer (n d a b n0 d0 : Z) : Prop := Z.abs (n * d0 - n0 * d) * b <= Z.abs (a * d0 - n0 * b) * d.
Lemma closer_R n d a b n0 d0 : 0 < d -> 0 < b -> 0 < d0 -> closer n d a b n0 d0 -> (Rabs (IZR n / IZR d - IZR n0 / IZR d0) <= Rabs (IZR a / IZR b - IZR n0 / IZR d0))%R.
Proof.
  intros Hd Hb H0 C. unfold closer in C. apply IZR_le in C. rewrite !mult_IZR, !abs_IZR, !minus_IZR, !mult_IZR in C. apply IZR_lt in Hd, Hb, H0.
  replace (IZR n / IZR d - IZR n0 / IZR d0)%R with ((IZR n * IZR d0 - IZR n0 * IZR d) * / (IZR d * IZR d0))%R by (field; lra).
  replace (IZR a / IZR b - IZR n0 / IZR d0)%R with ((IZR a * IZR d0 - IZR n0 * IZR b) * / (IZR b * IZR d0))%R by (field; lra).
  rewrite !Rabs_mult. assert (P : forall u v, (0 < u)%R -> (0 < v)%R -> (Rabs (/ (u * v)) = / (u * v))%R). { intros u v Hu Hv. apply Rabs_pos_eq, Rlt_le, Rinv_0_lt_compat, Rmult_lt_0_compat; assumption. } rewrite !P by assumption.
  apply (Rmult_le_reg_r (IZR d * IZR b * IZR d0)); [apply Rmult_lt_0_compat; [apply Rmult_lt_0_compat|]; assumption|]. 
  match goal with |- (?u * / _ * _ <= ?v * / _ * _)%R => replace (u * / (IZR d * IZR d0) * (IZR d * IZR b * IZR d0))%R with (u * IZR b)%R by (field; lra); replace (v * / (IZR b * IZR d0) * (IZR d * IZR b * IZR d0))%R with (v * IZR d)%R by (field; lra) end. exact C.
Qed.
Lemma neighbours n1 d1 n2 d2 al be a b maxd n0 d0 : 0 < d1 -> 0 < d2 -> 0 < al -> 0 < be -> (n2 * d1 - n1 * d2 = 1 \/ n2 * d1 - n1 * d2 = -1) -> n0 = al * n1 + be * n2 -> d0 = al * d1 + be * d2 ->
  maxd < d1 + d2 -> 0 < b <= maxd -> closer n1 d1 a b n0 d0 \/ closer n2 d2 a b n0 d0.
Proof.
  intros H1 H2 Ha Hb Det -> -> Hm Hbb. set (e := n2 * d1 - n1 * d2) in *. assert (Ee : e * e = 1) by (destruct Det as [-> | ->]; reflexivity).
  (* a = u n1 + v n2, b = u d1 + v d2 *)
  set (u := e * (n2 * b - a * d2)). set (v := e * (a * d1 - n1 * b)).
  assert (Ea : a = u * n1 + v * n2). { transitivity (e * e * a); [rewrite Ee; ring|]. unfold u, v. unfold e at 2. ring. }
  assert (Eb : b = u * d1 + v * d2). { transitivity (e * e * b); [rewrite Ee; ring|]. unfold u, v. unfold e at 2. ring. }
  clearbody u v. unfold closer.
  assert (D1 : n1 * (al * d1 + be * d2) - (al * n1 + be * n2) * d1 = - (e * be)) by (unfold e; ring).
  assert (D2 : n2 * (al * d1 + be * d2) - (al * n1 + be * n2) * d2 = e * al) by (unfold e; ring).
  assert (D3 : a * (al * d1 + be * d2) - (al * n1 + be * n2) * b = e * (v * al - u * be)) by (rewrite Ea, Eb; unfold e; ring).
  rewrite D1, D2, D3. rewrite Z.abs_opp, !Z.abs_mul. assert (Ae : Z.abs e = 1) by (destruct Det as [-> | ->]; reflexivity). rewrite Ae, !Z.mul_1_l. rewrite (Z.abs_eq al), (Z.abs_eq be) by lia.
  clear D1 D2 D3 Det Ee Ae e Ea. destruct (Z_lt_ge_dec 0 u) as [Hu|Hu]; [destruct (Z_lt_ge_dec 0 v) as [Hv|Hv]|].
  - exfalso. assert (d1 * 1 <= d1 * u) by (apply Z.mul_le_mono_nonneg_l; lia). assert (d2 * 1 <= d2 * v) by (apply Z.mul_le_mono_nonneg_l; lia). lia.
  - left. assert (X1 : v * al <= 0) by (apply Z.mul_nonpos_nonneg; lia). assert (X2 : 0 <= u * be) by (apply Z.mul_nonneg_nonneg; lia). rewrite Z.abs_neq by lia.
    assert (X3 : be * (v * d2) <= 0) by (apply Z.mul_nonneg_nonpos; [lia|apply Z.mul_nonpos_nonneg; lia]). assert (X4 : v * al * d1 <= 0) by (apply Z.mul_nonpos_nonneg; lia).
    rewrite Eb. replace (be * (u * d1 + v * d2)) with (u * be * d1 + be * (v * d2)) by ring. replace (- (v * al - u * be) * d1) with (u * be * d1 - v * al * d1) by ring. lia.
  - right. assert (Hv : 0 < v). { destruct (Z_lt_ge_dec 0 v) as [L|L]; [exact L|]. assert (u * d1 <= 0) by (apply Z.mul_nonpos_nonneg; lia). assert (v * d2 <= 0) by (apply Z.mul_nonpos_nonneg; lia). lia. }
    assert (X1 : u * be <= 0) by (apply Z.mul_nonpos_nonneg; lia). assert (X2 : 0 <= v * al) by (apply Z.mul_nonneg_nonneg; lia). rewrite Z.abs_eq by lia.
    assert (X3 : al * (u * d1) <= 0) by (apply Z.mul_nonneg_nonpos; [lia|apply Z.mul_nonpos_nonneg; lia]). assert (X4 : u * be * d2 <= 0) by (apply Z.mul_nonpos_nonneg; lia).
    rewrite Eb. replace (al * (u * d1 + v * d2)) with (al * (u * d1) + v * al * d2) by ring. replace ((v * al - u * be) * d2) with (v * al * d2 - u * be * d2) by ring. lia.
Qed.
Lemma abs_scaled d1 x : 0 < d1 -> Z.abs (d1 * x) = d1 * Z.abs x.
Proof. intros H. rewrite Z.abs_mul, (Z.abs_eq d1) by lia. reflexivity. Qed.
Lemma cf_result_best maxd n0 d0 s : 1 <= maxd < d0 -> cf_inv maxd n0 d0 s -> cf_stop maxd s = true ->
  let r := cf_result maxd n0 d0 s in 0 < snd r <= maxd /\ Z.gcd (fst r) (snd r) = 1 /\ forall a b, 0 < b <= maxd -> closer (fst r) (snd r) a b n0 d0.
Proof.
  intros Hm I Hs. destruct I as [I1 I2 I3 I4 I5 I6 I7]. cbv zeta. unfold cf_stop in Hs. apply orb_true_iff in Hs as [Hs|Hs]; [|apply Z.leb_le in Hs; lia]. apply Z.ltb_lt in Hs. unfold cf_a in Hs. rewrite floordiv_pos in Hs by exact I5.
  set (A := cf_n s / cf_d s) in *. pose proof (Z.div_mod (cf_n s) (cf_d s) ltac:(lia)) as DM. pose proof (Z.mod_pos_bound (cf_n s) (cf_d s) I5) as MB. fold A in DM.
  destruct I6 as [(Q0 & Q1 & _)|(Q0 & Q1 & Q2 & Q3)]; [rewrite Q0, Q1 in Hs; lia|]. unfold cf_result. rewrite floordiv_pos by lia. replace (d0 <? maxd) with false by (symmetry; apply Z.ltb_ge; lia).
  set (k := (maxd - cf_q0 s) / cf_q1 s). pose proof (Z.div_mod (maxd - cf_q0 s) (cf_q1 s) ltac:(lia)) as DK. pose proof (Z.mod_pos_bound (maxd - cf_q0 s) (cf_q1 s) ltac:(lia)) as MK. fold k in DK.
  assert (Hk : 0 <= k) by (apply Z.div_pos; lia). assert (HkA : k < A) by (apply (Z.mul_lt_mono_pos_r (cf_q1 s)); lia).
  set (n1 := cf_p0 s + k * cf_p1 s). set (d1 := cf_q0 s + k * cf_q1 s). set (n2 := cf_p1 s) in *. set (d2 := cf_q1 s) in *.
  assert (Hd1 : d1 <= maxd) by (unfold d1; lia). assert (Hs1 : maxd < d1 + d2) by (unfold d1; lia). assert (Hp1 : 0 < d1) by lia.
  assert (Det : n2 * d1 - n1 * d2 = 1 \/ n2 * d1 - n1 * d2 = -1). { replace (n2 * d1 - n1 * d2) with (n2 * cf_q0 s - cf_p0 s * d2) by (unfold n1, d1; fold n2 d2; ring). exact I4. }
  assert (G : forall x y z w, x * w - z * y = 1 \/ x * w - z * y = -1 -> Z.gcd x y = 1).
  { intros x y z w H. pose proof (Z.gcd_nonneg x y) as G0. destruct (Z.gcd_divide_l x y) as [p Hp]. destruct (Z.gcd_divide_r x y) as [q Hq]. set (g := Z.gcd x y) in *. assert (g * (p * w - z * q) = 1 \/ g * (p * w - z * q) = -1) as H' by (replace (g * (p * w - z * q)) with (p * g * w - z * (q * g)) by ring; rewrite <- Hp, <- Hq; exact H).
    destruct H' as [H'|H']; [apply Z.eq_mul_1_nonneg in H'; lia|]. assert (g * - (p * w - z * q) = 1) as H'' by lia. apply Z.eq_mul_1_nonneg in H''; lia. }
  assert (B : forall a b, 0 < b <= maxd -> closer n1 d1 a b n0 d0 \/ closer n2 d2 a b n0 d0).
  { intros a b Hb. pose proof HkA. apply (neighbours n1 d1 n2 d2 (cf_d s) (cf_n s - k * cf_d s) a b maxd n0 d0); [lia|lia|lia| |exact Det| | |lia|lia].
    - assert (k * cf_d s < A * cf_d s) by (apply Z.mul_lt_mono_pos_r; lia). lia.
    - rewrite I2; unfold n1; fold n2; ring.
    - rewrite I3; unfold d1; fold d2; ring. }
  assert (T : forall x1 y1 x2 y2 a b, 0 < y1 -> 0 < y2 -> 0 < b -> Z.abs (x1 * d0 - n0 * y1) * y2 <= Z.abs (x2 * d0 - n0 * y2) * y1 -> closer x2 y2 a b n0 d0 -> closer x1 y1 a b n0 d0).
  { unfold closer. intros x1 y1 x2 y2 a b P1 P2 P3 H C. apply (Z.mul_le_mono_pos_r _ _ y2 P2). apply (Z.mul_le_mono_nonneg_r _ _ b) in H; [|lia]. apply (Z.mul_le_mono_nonneg_r _ _ y1) in C; [|lia]. clear - H C. lia. }
  rewrite !abs_scaled by lia. destruct (Z.leb_spec (d1 * Z.abs (n2 * d0 - n0 * d2)) (d2 * Z.abs (n1 * d0 - n0 * d1))) as [L|L]; cbn [fst snd].
  - split; [lia|]. split; [apply (G n2 d2 n1 d1); exact Det|]. intros a b Hb. destruct (B a b Hb) as [C|C]; [|exact C]. apply (T n2 d2 n1 d1 a b); try lia. exact C.
  - split; [lia|]. split; [apply (G n1 d1 n2 d2); lia|]. intros a b Hb. destruct (B a b Hb) as [C|C]; [exact C|]. apply (T n1 d1 n2 d2 a b); try lia. exact C.
Qed.
