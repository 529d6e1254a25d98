(* C54: rounding of fractions and Gram-Schmidt. *)
From Coq Require Import Reals Lra Lia ZArith Znumtheory List.
From Verif Require Import PyBase ArrayModel LeadModel SumR MathModel MathProofs GSProofs.
Import ListNotations.
Open Scope Z_scope.

(* normalize_integer_ratio: same fraction, positive denominator, lowest terms *)
Theorem C54_normalize n d n' d' : d <> 0 -> normalize_integer_ratio n d = (n', d') -> 0 < d' /\ Z.gcd n' d' = 1 /\ n' * d = n * d'.
Proof.
  intros Hd. unfold normalize_integer_ratio. pose proof (Z.gcd_nonneg n d) as G0. assert (G : 0 < Z.gcd n d) by (assert (Z.gcd n d <> 0) by (intros E; apply Z.gcd_eq_0_r in E; lia); lia).
  destruct (Z.gcd_divide_l n d) as [p Hp]. destruct (Z.gcd_divide_r n d) as [q Hq]. pose proof (Z.gcd_div_gcd n d (Z.gcd n d) ltac:(lia) eq_refl) as C. set (g := Z.gcd n d) in *.
  assert (P : n / g = p) by (rewrite Hp; apply Z.div_mul; lia). assert (Q : d / g = q) by (rewrite Hq at 1; apply Z.div_mul; lia). rewrite P, Q in C.
  unfold floordiv. destruct (Z.ltb_spec d 0) as [L|L]; intros E; injection E as <- <-.
  - destruct (Z.eqb_spec (- g) 0); [lia|]. assert (P' : n / - g = - p) by (rewrite Hp; replace (p * g) with (- p * - g) by ring; apply Z.div_mul; lia). assert (Q' : d / - g = - q) by (rewrite Hq at 1; replace (q * g) with (- q * - g) by ring; apply Z.div_mul; lia). rewrite P', Q'.
    split; [nia|]. split; [rewrite Z.gcd_opp_l, Z.gcd_opp_r; exact C|]. rewrite Hp, Hq at 1. rewrite Hq at 1 || idtac. nia.
  - destruct (Z.eqb_spec g 0); [lia|]. rewrite P, Q. split; [nia|]. split; [exact C|]. nia.
Qed.

(* ---------- limit_denominator ---------- *)
(* the closest fraction to n/d with a denominator at most maxd *)
Definition best_fraction (maxd : Z) (x r : Z * Z) : Prop :=
  let '(n, d) := x in let '(n', d') := r in
  0 < d' <= maxd /\ Z.gcd n' d' = 1 /\ forall a b, 0 < b <= maxd -> (Rabs (IZR n' / IZR d' - IZR n / IZR d) <= Rabs (IZR a / IZR b - IZR n / IZR d))%R.

Definition element (fuel : nat) (maxd : Z) (x : Z * Z) : Z * Z := cf_result maxd (fst x) (snd x) (turns maxd fuel (cf_start (fst x) (snd x))).
Definition lowest (maxd : Z) (x : Z * Z) : Prop := 0 < snd x /\ Z.gcd (fst x) (snd x) = 1.
Lemma start_running maxd x : 1 <= maxd -> lowest maxd x -> running maxd (cf_start (fst x) (snd x)).
Proof.
  intros Hm [Hd G]. destruct (Z_lt_ge_dec maxd (snd x)) as [L|L]; [right; exists (fst x), (snd x); split; [lia|apply cf_start_inv; assumption]|]. left. unfold cf_stop. apply orb_true_iff. right. cbn [cf_start cf_d0]. apply Z.leb_le. lia.
Qed.
Lemma start_need maxd x : (need maxd (cf_start (fst x) (snd x)) <= Z.to_nat (snd x))%nat.
Proof. unfold need. destruct (cf_stop maxd _); cbn [cf_start cf_d]; lia. Qed.
Definition enough (xs : list (Z * Z)) : nat := fold_right (fun x m => Nat.max (Z.to_nat (snd x)) m) O xs.
Lemma enough_in xs x : In x xs -> (Z.to_nat (snd x) <= enough xs)%nat.
Proof. induction xs as [|y xs IH]; [intros []|]. intros [-> |H]; cbn [enough fold_right]; [|specialize (IH H); fold (enough xs)]; lia. Qed.
Lemma combine_self {A B C} (f : A -> B) (g : A * B -> C) l : map g (combine l (map f l)) = map (fun a => g (a, f a)) l.
Proof. induction l as [|a l IH]; [reflexivity|]. cbn. f_equal. exact IH. Qed.
Lemma limit_map fuel maxd xs : 1 <= maxd -> Forall (lowest maxd) xs -> (enough xs <= fuel)%nat -> limit_denominator fuel maxd xs = Some (map (element fuel maxd) xs).
Proof.
  intros Hm HL Hf. rewrite Forall_forall in HL. unfold limit_denominator. rewrite cf_loop_spec.
  - f_equal. rewrite map_map. rewrite (combine_self (fun x : Z * Z => turns maxd fuel (let '(n, d) := x in cf_start n d))). apply map_ext. intros [n d]. reflexivity.
  - intros s Hs. apply in_map_iff in Hs as ([n d] & <- & Hx). split; [apply (start_running maxd (n, d) Hm (HL _ Hx))|]. pose proof (start_need maxd (n, d)) as N. pose proof (enough_in xs _ Hx) as E. cbn [fst snd] in *. lia.
Qed.
Lemma element_best fuel maxd x : 1 <= maxd -> lowest maxd x -> snd x <> maxd -> (Z.to_nat (snd x) <= fuel)%nat -> best_fraction maxd x (element fuel maxd x) /\ (snd x < maxd -> element fuel maxd x = x).
Proof.
  intros Hm HL Hd Hf. pose proof (start_running maxd x Hm HL) as Hr. destruct HL as [Hp G]. destruct x as [n d]. cbn [fst snd] in *. destruct (Z_lt_ge_dec d maxd) as [L|L].
  - assert (E : element fuel maxd (n, d) = (n, d)). { unfold element, cf_result. cbn [fst snd]. replace (d <? maxd) with true by (symmetry; apply Z.ltb_lt; exact L). reflexivity. }
    rewrite E. split; [|reflexivity]. unfold best_fraction. split; [lia|]. split; [exact G|]. intros a b Hb. unfold Rminus at 1. rewrite Rplus_opp_r, Rabs_R0. apply Rabs_pos.
  - assert (Hmd : 1 <= maxd < d) by lia. split; [|lia]. pose proof (turns_stop maxd fuel _ Hr ltac:(pose proof (start_need maxd (n, d)) as N; cbn [fst snd] in N; lia)) as S.
    pose proof (turns_inv maxd n d fuel _ Hmd (cf_start_inv maxd n d Hp G)) as I. pose proof (cf_result_best maxd n d _ Hmd I S) as B. cbv zeta in B. unfold element. cbn [fst snd]. destruct (cf_result maxd n d (turns maxd fuel (cf_start n d))) as [n' d']. cbn [fst snd] in B. destruct B as (B1 & B2 & B3).
    unfold best_fraction. split; [exact B1|]. split; [exact B2|]. intros a b Hb. apply closer_R; try lia. apply B3, Hb.
Qed.
(* the loop over the array ends; every element becomes the closest fraction with a denominator at most maxd, and is kept when its own
   denominator is smaller than maxd; the elements do not influence each other *)
Theorem C54_limit_denominator maxd xs : 1 <= maxd -> Forall (fun '(n, d) => 0 < d /\ Z.gcd n d = 1 /\ d <> maxd) xs ->
  exists fuel rs, (forall fuel', (fuel <= fuel')%nat -> limit_denominator fuel' maxd xs = Some rs) /\
    Forall2 (fun x r => best_fraction maxd x r /\ (snd x < maxd -> r = x) /\ exists fuel, limit_denominator fuel maxd [x] = Some [r]) xs rs.
Proof.
  intros Hm HL. assert (HL' : Forall (lowest maxd) xs) by (eapply Forall_impl; [|exact HL]; intros [n d] (H1 & H2 & _); split; assumption).
  exists (enough xs), (map (element (enough xs) maxd) xs). split.
  - intros fuel' Hf. rewrite limit_map by assumption. f_equal. apply map_ext_in. intros x Hx. unfold element. f_equal. rewrite Forall_forall in HL'. pose proof (start_need maxd x) as N. pose proof (enough_in xs x Hx) as E. apply turns_enough; [apply start_running; auto|lia|lia].
  - assert (Hin : forall x, In x xs -> (Z.to_nat (snd x) <= enough xs)%nat) by apply enough_in. revert Hin. generalize (enough xs) as fuel. intros fuel Hin. clear HL'. induction HL as [|x xs Hx HL IH]; [constructor|]. cbn [map]. constructor; [|apply IH; intros; apply Hin; right; assumption].
    destruct x as [n d]. destruct Hx as (H1 & H2 & H3). assert (Hx : lowest maxd (n, d)) by (split; assumption). pose proof (Hin _ (or_introl eq_refl)) as Hf. destruct (element_best fuel maxd (n, d) Hm Hx H3 Hf) as [B1 B2]. split; [exact B1|]. split; [exact B2|]. exists fuel. rewrite limit_map; [reflexivity|exact Hm|constructor; [exact Hx|constructor]|cbn in *; lia].
Qed.
Example C54_limit_witness : limit_denominator 20 1000 [(3141592653589793, 1000000000000000); (-2, 7)] = Some [(355, 113); (-2, 7)].
Proof. vm_compute. reflexivity. Qed.
(* a fraction whose denominator is exactly maxd is admissible, but is rounded to 0 (the loop uses d0 <= maxd, the result d0 < maxd) *)
Theorem C54_max_denominator_refuted fuel maxd n : 1 <= maxd -> limit_denominator fuel maxd [(n, maxd)] = Some [(0, 1)].
Proof.
  intros Hm. unfold limit_denominator. cbn [map]. assert (S : cf_stop maxd (cf_start n maxd) = true) by (unfold cf_stop; apply orb_true_iff; right; cbn [cf_start cf_d0]; apply Z.leb_le; lia).
  assert (L : cf_loop fuel maxd [cf_start n maxd] = Some [cf_start n maxd]) by (destruct fuel; cbn [cf_loop forallb]; rewrite S; reflexivity). rewrite L. cbn [combine map]. unfold cf_result, floordiv. cbn [cf_start cf_p0 cf_q0 cf_p1 cf_q1 Z.eqb]. rewrite Z.ltb_irrefl. rewrite !Z.mul_0_l, Z.add_0_l, Z.add_0_r, !Z.mul_1_l, Z.mul_0_r, Z.sub_0_r, Z.abs_0.
  destruct (Z.leb_spec (Z.abs maxd) 0); [lia|reflexivity].
Qed.

(* ---------- round_to_sqrt_rational ---------- *)
(* for x^2 = n/d (in lowest terms): the sign is kept, the square is the best fraction, and x is kept when d <= maxd^2 *)
Theorem C54_round maxd (xs : list (R * (Z * Z))) : 1 <= maxd -> Forall (fun '(x, (n, d)) => 0 < d /\ Z.gcd n d = 1 /\ d <> maxd * maxd + 1 /\ (x * x = IZR n / IZR d)%R) xs ->
  exists fuel ys, (forall fuel', (fuel <= fuel')%nat -> round_to_sqrt_rational fuel' maxd xs = Some ys) /\
    Forall2 (fun '(x, (n, d)) y => (exists n' d', best_fraction (maxd * maxd + 1) (n, d) (n', d') /\ 0 <= n' /\ Rabs y = sqrt (IZR n' / IZR d')) /\ (0 <= x * y)%R /\ (d <= maxd * maxd -> y = x)) xs ys.
Proof.
  intros Hm HL. set (M := maxd * maxd + 1). assert (HM : 1 <= M) by (unfold M; nia).
  destruct (C54_limit_denominator M (map snd xs) HM) as (fuel & rs & H1 & H2).
  { apply Forall_map. eapply Forall_impl; [|exact HL]. intros [x [n d]] (A & B & C & _). cbn [snd]. auto. }
  exists fuel, (map (fun '((x, _), (n, d)) => (np_sign x * sqrt (IZR n / IZR d))%R) (combine xs rs)). split.
  - intros f' Hf. unfold round_to_sqrt_rational. fold M. rewrite H1 by exact Hf. reflexivity.
  - clear H1. revert rs H2. induction HL as [|[x [n d]] xs Hx HL IH]; intros rs H2; [inversion H2; constructor|]. cbn [map] in H2. inversion H2 as [|? [n' d'] ? rs' (B & K & _) H2']; subst. cbn [combine map]. constructor; [|apply IH, H2']. cbn [snd] in *. destruct Hx as (P & G & N & E).
    destruct B as (B1 & B2 & B3). assert (Pd : (0 < IZR d)%R) by (apply IZR_lt; exact P). assert (Pd' : (0 < IZR d')%R) by (apply IZR_lt; lia).
    assert (N0 : 0 <= n). { apply le_IZR. assert (Q : (0 <= IZR n / IZR d)%R) by (rewrite <- E; nra). apply (Rmult_le_reg_r (/ IZR d)); [apply Rinv_0_lt_compat; exact Pd|]. unfold Rdiv in Q. lra. }
    assert (N' : 0 <= n').
    { destruct (Z_lt_ge_dec n' 0) as [L|L]; [|lia]. exfalso. specialize (B3 0 1 ltac:(lia)). assert (L' : (IZR n' / IZR d' < 0)%R) by (unfold Rdiv; apply IZR_lt in L; pose proof (Rinv_0_lt_compat _ Pd'); nra). assert (Q : (0 <= IZR n / IZR d)%R) by (rewrite <- E; nra). rewrite (Rabs_left (IZR n' / IZR d' - IZR n / IZR d)) in B3 by lra. unfold Rdiv at 3 in B3. rewrite Rmult_0_l in B3. rewrite Rminus_0_l, Rabs_Ropp, Rabs_pos_eq in B3 by exact Q. lra. }
    assert (Sg : (Rabs (np_sign x) = 1 \/ x = 0)%R /\ (x * np_sign x = Rabs x)%R /\ (np_sign x * Rabs x = x)%R). { unfold np_sign. destruct (Rlt_dec 0 x); [rewrite Rabs_R1, (Rabs_pos_eq x) by lra; repeat split; try lra; left; reflexivity|]. destruct (Rlt_dec x 0); [rewrite (Rabs_left x) by lra; repeat split; try lra; left; rewrite Rabs_left by lra; lra|]. assert (x = 0%R) by lra. subst. rewrite Rabs_R0. repeat split; try lra; try (right; reflexivity). }
    destruct Sg as (S1 & S2 & S3). assert (S0 : (0 <= sqrt (IZR n' / IZR d'))%R) by apply sqrt_pos. split; [|split].
    + exists n', d'. split; [split; [lia|auto]|]. split; [exact N'|]. rewrite Rabs_mult, (Rabs_pos_eq (sqrt _)) by exact S0. destruct S1 as [S1|S1]; [rewrite S1; ring|]. assert (Zn : n = 0). { apply eq_IZR. apply (Rmult_eq_reg_r (/ IZR d)); [|apply Rinv_neq_0_compat; lra]. unfold Rdiv in E. rewrite <- E, S1. ring. }
      assert (D1 : d = 1) by (rewrite Zn, Z.gcd_0_l in G; lia). assert (Q : (n', d') = (n, d)) by (apply K; cbn [snd]; unfold M; nia). injection Q as -> ->. rewrite Zn. unfold Rdiv. rewrite Rmult_0_l, sqrt_0. ring.
    + rewrite <- Rmult_assoc, S2. pose proof (Rabs_pos x). nra.
    + intros Hd. assert (Q : (n', d') = (n, d)) by (apply K; cbn [snd]; unfold M; lia). injection Q as -> ->. rewrite <- E. rewrite <- Rsqr_def || idtac. replace (x * x)%R with (Rsqr x) by reflexivity. rewrite sqrt_Rsqr_abs. exact S3.
Qed.
(* the documentation says: the closest number sqrt(p)/q with q <= maxd.  With maxd = 1 the number 7/10 is rounded to sqrt(1/2), which has not this form *)
Theorem C54_round_form_refuted : round_to_sqrt_rational 100 1 [((7 / 10)%R, (49, 100))] = Some [sqrt (1 / 2)] /\ forall p q : Z, 0 < q <= 1 -> sqrt (1 / 2) <> (sqrt (IZR p) / IZR q)%R.
Proof.
  split.
  - unfold round_to_sqrt_rational. change (map snd [((7 / 10)%R, (49, 100))]) with [(49, 100)]. replace (limit_denominator 100 (1 * 1 + 1) [(49, 100)]) with (Some [(1, 2)]) by (vm_compute; reflexivity). cbn [combine map]. f_equal. f_equal. unfold np_sign. destruct (Rlt_dec 0 (7 / 10)); [ring|lra].
  - intros p q Hq E. assert (q = 1) by lia. subst q. unfold Rdiv in E at 2. rewrite Rinv_1, Rmult_1_r in E. assert (E2 : (1 / 2 = sqrt (IZR p) * sqrt (IZR p))%R) by (rewrite <- E; symmetry; apply sqrt_sqrt; lra).
    destruct (Rle_or_lt 0 (IZR p)) as [H|H]; [rewrite sqrt_sqrt in E2 by exact H|rewrite sqrt_neg_0 in E2 by lra; lra]. assert (E3 : (IZR (2 * p) = IZR 1)%R) by (rewrite mult_IZR; lra). apply eq_IZR in E3. lia.
Qed.

(* ---------- gram_schmidt ---------- *)
Open Scope nat_scope.
(* for every matrix: the rows returned are orthonormal and lie in the span of the rows of A; every row of A is in their span up to a
   vector of norm at most epsilon (exactly, for epsilon = 0); there are at most min(A.shape) of them *)
Theorem C54_gram_schmidt w eps A : (0 <= eps)%R -> of_width w A -> let (Q, _) := gram_schmidt (fun v => v) eps A in
  of_width w Q /\ orthonormal w Q /\ length Q <= length A /\ length Q <= w /\
  (forall i, i < length Q -> spanned w A (at_ Q i)) /\
  (forall i, i < length A -> exists d, length d = w /\ (sqrt (inner w d d) <= eps)%R /\ spanned w Q (fun k => at_ A i k - nth k d 0)%R).
Proof.
  intros He HA. destruct (gs_loop_ok w eps A He HA [] (Forall_nil _)) as (Q & A' & E & G); [intros i j Hi; cbn in Hi; lia|]. unfold gram_schmidt. change (fun v : list R => v) with same. rewrite E. cbn [app]. destruct G as [G1 G2 G3 G4 G5 G6 G7 G8]. cbn [app] in *.
  split; [exact G1|]. split; [exact G2|]. split; [exact G3|]. split; [apply orthonormal_count; assumption|]. split; [exact G6|]. intros i Hi. unfold of_width in G5. rewrite Forall_forall in G5. assert (Li : length (nth i A' []) = w) by (apply G5, nth_In; lia). destruct (G8 i Hi) as [H|H].
  - exists (repeat 0%R w). split; [apply repeat_length|]. assert (Z : forall k, nth k (repeat 0%R w) 0%R = 0%R) by (intros k; destruct (Nat.lt_ge_cases k w); [apply nth_repeat|apply nth_overflow; rewrite repeat_length; lia]). split.
    + unfold inner. rewrite rsum_zero; [rewrite sqrt_0; exact He|]. intros k _. rewrite Z. ring.
    + apply (spanned_ext w Q (fun k => 1 * (at_ A i k - at_ A' i k) + 1 * at_ A' i k)%R); [intros k _; rewrite Z; ring|]. apply spanned_comb; [apply G7, Hi|exact H].
  - exists (nth i A' []). split; [exact Li|]. split; [unfold norm2 in H; rewrite (inner_dotR w) in H by exact Li; exact H|]. apply G7, Hi.
Qed.
(* with epsilon = 0 the rows of Q and of A span the same space, so Q is an orthonormal basis of the row space *)
Theorem C54_gram_schmidt_span w A v : of_width w A -> let (Q, _) := gram_schmidt (fun v => v) 0 A in spanned w Q v <-> spanned w A v.
Proof.
  intros HA. pose proof (C54_gram_schmidt w 0 A (Rle_refl 0) HA) as H. destruct (gram_schmidt (fun v => v) 0 A) as [Q A']. destruct H as (_ & _ & _ & _ & H1 & H2). split; [apply spanned_trans, H1|]. apply spanned_trans. intros i Hi. destruct (H2 i Hi) as (d & Ld & Nd & Sd).
  apply (spanned_ext w Q (fun k => at_ A i k - nth k d 0)%R); [|exact Sd]. intros k Hk. rewrite (inner_zero w d); [ring| |exact Hk]. pose proof (inner_pos w d). destruct (Req_dec (inner w d d) 0) as [E|N]; [exact E|]. pose proof (sqrt_lt_R0 (inner w d d) ltac:(lra)). lra.
Qed.
(* rows that are already orthonormal are returned unchanged *)
Theorem C54_gram_schmidt_fixed w eps A : (eps < 1)%R -> of_width w A -> orthonormal w A -> fst (gram_schmidt (fun v => v) eps A) = A.
Proof. intros He HA HO. unfold gram_schmidt. change (fun v : list R => v) with same. rewrite (gs_loop_orthonormal w eps A He HA [] (Forall_nil _) HO). reflexivity. Qed.
(* so a second call changes nothing *)
Theorem C54_gram_schmidt_idempotent w eps A : (0 <= eps < 1)%R -> of_width w A -> let Q := fst (gram_schmidt (fun v => v) eps A) in fst (gram_schmidt (fun v => v) eps Q) = Q.
Proof.
  intros He HA. pose proof (C54_gram_schmidt w eps A ltac:(lra) HA) as H. destruct (gram_schmidt (fun v => v) eps A) as [Q A']. cbn [fst]. destruct H as (H1 & H2 & _). apply (C54_gram_schmidt_fixed w); [lra|exact H1|exact H2].
Qed.
Lemma norm_one v : dotR v v = 1%R -> norm2 v = 1%R.
Proof. intros E. unfold norm2. rewrite E. apply sqrt_1. Qed.
Lemma norm_10 : norm2 [1; 0]%R = 1%R.
Proof. apply norm_one. unfold dotR, zipR. cbn [combine map fold_right]. ring. Qed.
Lemma norm_01 : norm2 [0; 1]%R = 1%R.
Proof. apply norm_one. unfold dotR, zipR. cbn [combine map fold_right]. ring. Qed.
(* the caller's matrix is overwritten: row i becomes its component orthogonal to the rows found before it *)
Theorem C54_argument_overwritten_refuted : exists A, of_width 2 A /\ snd (gram_schmidt (fun v => v) (1 / 100000) A) <> A.
Proof.
  exists [[1; 0]; [1; 1]]%R. split; [repeat constructor|]. unfold gram_schmidt. rewrite (gs_keep _ _ [1; 0]%R _ [] [1; 0]%R 1%R eq_refl norm_10) by lra. cbn [app map snd]. assert (Er : residual [[1 / 1; 0 / 1]]%R [1; 1]%R = [0; 1]%R) by (unfold residual, subtract_along, dotR, zipR; cbn [fold_left combine map fold_right]; repeat f_equal; field).
  rewrite (gs_keep _ _ _ _ _ [0; 1]%R 1%R Er norm_01) by lra. cbn [snd gs_loop]. intros E. injection E. lra.
Qed.
(* the hypotheses of the theorems are met by every matrix; e.g. dependent rows are dropped *)
Example C54_gram_schmidt_witness : fst (gram_schmidt (fun v => v) (1 / 100000) [[1; 0]; [3; 0]]%R) = [[1; 0]]%R.
Proof.
  unfold gram_schmidt. rewrite (gs_keep _ _ [1; 0]%R _ [] [1; 0]%R 1%R eq_refl norm_10) by lra. cbn [app map fst]. assert (Er : residual [[1 / 1; 0 / 1]]%R [3; 0]%R = [0; 0]%R) by (unfold residual, subtract_along, dotR, zipR; cbn [fold_left combine map fold_right]; repeat f_equal; field).
  rewrite (gs_drop _ _ _ _ _ [0; 0]%R (sqrt 0) Er) by (try (rewrite sqrt_0; lra); unfold norm2, dotR, zipR; cbn [combine map fold_right]; f_equal; ring). cbn [fst gs_loop]. repeat f_equal; field.
Qed.
