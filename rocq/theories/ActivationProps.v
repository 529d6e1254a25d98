(* C41 scalar_activation, C42 gate, C57 norm_activation / soft_normalization / key_value_activation.
   The points pts stand for normalspace(1_000_001); every theorem holds for all lists of points. *)
From Coq Require Import Reals ZArith Arith Bool Lia Lra Psatz List.
From Verif Require Import PyBase IrrepsModel IrrepsProofs ArrayModel ArrayProofs LeadModel SumR CGModel CGProofs6 WignerModel WignerProofs LeadProofs ArrayOps SliceProofs2 BlockProofs BilinProofs EquivProofs EquivProofs2 LinearModel LinearProofs TPModel TPProofs WignerProofs2 WignerProps WignerProps2 ActivationModel ActivationProofs GateProofs NormActProofs EntryProofs.
From Verif Require RotationModel RotationProofs.
Import RotationModel RotationProofs ListNotations.
Open Scope R_scope.
Notation act_entry := ActivationModel.act_entry.

(* ---------- the matrices of O(3), on scalars ---------- *)
Lemma W_scalar r : W (proper r) 0 0%nat 0%nat = 1.
Proof. apply (proj1 (wfam_W (proper r))). Qed.
Lemma rep_of_scalar_p r p : rep_of r (Irrep 0 p) = [[chi r p]].
Proof. unfold rep_of, as_rep. cbn [ir_dim ir_l Nat.mul Nat.add tab2 tab seq map]. rewrite D_matrix_eq by (cbn; lia). cbn [ir_l ir_p]. rewrite W_scalar, Rmult_1_l. reflexivity. Qed.
Lemma chi_sign r p : sign_of (rep_of r) p = chi r p.
Proof. destruct p; cbn [sign_of]; [unfold chi; destruct (sg r); reflexivity|]. rewrite rep_of_scalar_p. reflexivity. Qed.
Lemma rep_of_signs r : orthogonal3 r -> scalar_signs (rep_of r).
Proof. intros O. split; [now apply rep_of_scalar|]. rewrite rep_of_scalar_p. unfold chi. destruct (sg r); cbn [pR]; auto. Qed.
Lemma chi_pmul r p q : chi r (pmul p q) = chi r p * chi r q.
Proof. unfold chi. destruct (sg r); [apply pR_mul|ring]. Qed.
Lemma rep_of_parity r : orthogonal3 r -> parity_rep (rep_of r).
Proof.
  intros O. split; [now apply rep_of_signs|]. intros l p q v L. unfold rep_of at 1 3. rewrite !matvec_as_rep by (unfold ir_dim; cbn [ir_l]; exact L).
  unfold tab. rewrite map_map. apply map_ext_in. intros a Ha. apply in_seq in Ha. change (ir_dim (Irrep l (pmul p q))) with (ir_dim (Irrep l q)) in *. rewrite <- rsum_scal. apply rsum_ext. intros b Hb.
  rewrite !D_matrix_eq by (cbn [ir_l] in *; unfold ir_dim in *; cbn [ir_l] in *; lia). cbn [ir_l ir_p]. rewrite chi_sign, chi_pmul. ring.
Qed.
Lemma cg_scalar_coupling_l : scalar_coupling_l clebsch_gordan.
Proof. intros l j k Hj Hk. now apply cg_scalar_left. Qed.

(* ================= C41 ================= *)
(* each activated block is the function applied elementwise, its irrep is the scalar whose parity is the parity of the function when the input is odd, 0e when it is even; the other blocks are returned as they are *)
Theorem C41_value pts acts even odd norm x : coherent x ->
  let acts' := match acts with Some l => l | None => default_acts even odd (irr x) end in
  Forall2 (admissible pts norm) (irr x) acts' -> Forall2 (zeros_stay pts norm) (zero_flags x) acts' -> by_identity acts' ->
  yields (scalar_activation pts acts even odd norm x) (map2 (out_entry pts norm) (irr x) acts') (lead x)
    (fun i => concat (map2 (out_block pts norm) acts' (blocks (irr x) (arr x i)))).
Proof. intros H acts' A Z B. exact (scalar_activation_yields pts acts even odd norm x H A Z B). Qed.

(* equivariance, for every family of matrices that is trivial on 0e and a sign on 0o *)
Theorem C41_equivariant pts acts even odd norm D x : rep_ok D -> scalar_signs D -> coherent x ->
  let acts' := match acts with Some l => l | None => default_acts even odd (irr x) end in
  Forall2 (admissible pts norm) (irr x) acts' -> Forall2 (zeros_stay pts norm) (zero_flags x) acts' -> by_identity acts' ->
  Forall2 (fun m a => forall f, a = Some f -> ir_p (snd m) = Odd -> honest (activate pts norm f)) (irr x) acts' ->
  agree (let! y := scalar_activation pts acts even odd norm x in transform D y) (let! y := transform D x in scalar_activation pts acts even odd norm y).
Proof. intros HD S H acts' A Z B P. now apply scalar_activation_commutes. Qed.
Theorem C41_O3 pts acts even odd norm r x : orthogonal3 r -> coherent x ->
  let acts' := match acts with Some l => l | None => default_acts even odd (irr x) end in
  Forall2 (admissible pts norm) (irr x) acts' -> Forall2 (zeros_stay pts norm) (zero_flags x) acts' -> by_identity acts' ->
  Forall2 (fun m a => forall f, a = Some f -> ir_p (snd m) = Odd -> honest (activate pts norm f)) (irr x) acts' ->
  agree (let! y := scalar_activation pts acts even odd norm x in transform_by_matrix y r) (let! y := transform_by_matrix x r in scalar_activation pts acts even odd norm y).
Proof. intros O H acts' A Z B P. rewrite bind_by_matrix, by_matrix. apply scalar_activation_commutes; auto using rep_of_signs. apply as_rep_ok. Qed.

(* rejections: what is accepted is admissible, and the error is a ValueError; a wrong number of functions is an AssertionError *)
Lemma act_entry_err pts norm s m c a : ~ admissible pts norm m a -> act_entry pts norm s m c a = Err ValueError.
Proof.
  intros N. destruct m as [n [l p]]. destruct a as [f|]; [|exfalso; apply N; exact I]. unfold act_entry. cbn [fst snd ir_l ir_p]. destruct (l =? 0)%nat eqn:E; [|reflexivity]. cbn [negb]. apply Nat.eqb_eq in E. subst l.
  destruct p; cbn [Z.eqb]; [exfalso; apply N; split; [reflexivity|discriminate]|]. destruct (parity_function _ =? 0)%Z eqn:E; [reflexivity|]. exfalso. apply N. split; [reflexivity|]. intros _ E'. rewrite E' in E. discriminate.
Qed.
Lemma act_entry_dec pts norm s m c a : admissible pts norm m a \/ act_entry pts norm s m c a = Err ValueError.
Proof.
  destruct m as [n [l p]]. destruct a as [f|]; [|left; exact I]. unfold act_entry, admissible. cbn [fst snd ir_l ir_p]. destruct (l =? 0)%nat eqn:E; [|right; reflexivity]. cbn [negb]. apply Nat.eqb_eq in E. subst l.
  destruct p; [left; split; [reflexivity|discriminate]|]. destruct (parity_function _ =? 0)%Z eqn:E; [right; reflexivity|]. left. split; [reflexivity|]. intros _ E'. rewrite E' in E. discriminate.
Qed.
Lemma act_entry_errs pts norm s m c a e : act_entry pts norm s m c a = Err e -> e = ValueError.
Proof. unfold act_entry. destruct a; [|discriminate]. destruct (negb _); [congruence|]. cbv zeta. destruct (_ =? 0)%Z; congruence. Qed.
Lemma act_entries_reject pts norm s : forall x cs acts, length cs = length x -> length acts = length x ->
  Forall2 (admissible pts norm) x acts \/ mapM (fun '((m, c), a) => act_entry pts norm s m c a) (combine (combine x cs) acts) = Err ValueError.
Proof.
  induction x as [|m x IH]; intros [|c cs] [|a acts] L1 L2; try discriminate; [left; constructor|]. cbn in L1, L2. cbn [combine mapM].
  destruct (act_entry_dec pts norm s m c a) as [A|E]; [|right; now rewrite E]. destruct (act_entry pts norm s m c a) as [z|e] eqn:E; [|right; cbn [bind]; f_equal; eapply act_entry_errs; exact E]. cbn [bind].
  destruct (IH cs acts) as [F|F]; [lia|lia|left; constructor; assumption|right]. now rewrite F.
Qed.
Theorem C41_rejects pts acts even odd norm x : coherent x ->
  let acts' := match acts with Some l => l | None => default_acts even odd (irr x) end in
  length acts' = length (irr x) -> (exists m a, In (m, a) (combine (irr x) acts') /\ exists f, a = Some f /\ (ir_l (snd m) <> 0%nat \/ (ir_p (snd m) = Odd /\ parity_function (activate pts norm f) = 0%Z))) ->
  scalar_activation pts acts even odd norm x = Err ValueError.
Proof.
  intros H acts' L (m & a & Hin & f & -> & Hbad). unfold scalar_activation. fold acts'. rewrite L, Nat.eqb_refl. cbn [negb].
  assert (Lc : length (chunks x) = length (irr x)) by (symmetry; eapply Forall2_length, chunks_wf, H).
  destruct (act_entries_reject pts norm (lead x) (irr x) (chunks x) acts' Lc L) as [F|E]; [|now rewrite E].
  exfalso. clear - F Hin Hbad. induction F as [|m' a' l l' A F IH]; [contradiction|]. destruct Hin as [E|Hin]; [|now apply IH]. injection E as -> ->. destruct A as (A1 & A2). destruct Hbad as [B|(B1 & B2)]; [contradiction|]. now apply A2.
Qed.
Theorem C41_wrong_number pts acts even odd norm x : length acts <> length (irr x) -> scalar_activation pts (Some acts) even odd norm x = Err AssertionError.
Proof. intros N. unfold scalar_activation. replace (length (irr x) =? length acts)%nat with false by (symmetry; apply Nat.eqb_neq; congruence). reflexivity. Qed.
(* by default only scalars are activated, so l > 0 is never an error *)
Theorem C41_default_admissible pts even odd norm (x : irreps) : (In (Irrep 0 Odd) (map snd x) -> parity_function (activate pts norm odd) <> 0%Z) -> Forall2 (admissible pts norm) x (default_acts even odd x).
Proof.
  intros P. induction x as [|[n [l p]] x IH]; [constructor|]. cbn [default_acts map]. constructor; [|apply IH; intros Hi; apply P; right; exact Hi]. cbn [ir_l ir_p]. destruct l as [|l]; cbn [Nat.eqb admissible]; [|exact I]. split; [reflexivity|]. cbn [snd ir_p]. intros ->. apply P. left. reflexivity.
Qed.

(* ---- parity_function ---- *)
Lemma forallb_linspace (P : R -> bool) b n : (forall x, P x = true) -> forallb P (linspace0 b n) = true.
Proof. intros H. apply forallb_forall. intros x _. apply H. Qed.
Theorem C41_parity_of_even g : (forall t, g (- t) = g t) -> parity_function g = 1%Z.
Proof. intros E. unfold parity_function. cbv zeta. rewrite forallb_linspace; [reflexivity|]. intros x. rewrite E, Rminus_diag_eq, Rabs_R0 by reflexivity. apply Rltb_true. lra. Qed.
(* an odd function is never reported as having no parity; it is reported odd as soon as one of the samples exceeds the tolerance *)
Theorem C41_parity_of_odd g : (forall t, g (- t) = - g t) -> parity_function g <> 0%Z /\ ((exists x, In x (linspace0 10 256) /\ / 100000 <= Rabs (2 * g x)) -> parity_function g = (-1)%Z).
Proof.
  intros E. unfold parity_function. cbv zeta. assert (O : forallb (fun x => Rltb (Rabs (g x + g (- x))) (/ 100000)) (linspace0 10 256) = true).
  { apply forallb_linspace. intros x. rewrite E, Rplus_opp_r, Rabs_R0. apply Rltb_true. lra. }
  rewrite O. split; [match goal with |- context [if ?b then _ else _] => destruct b end; discriminate|]. intros (x & Hx & Hg). destruct (forallb (fun x => Rltb (Rabs (g x - g (- x))) (/ 100000)) (linspace0 10 256)) eqn:F; [|reflexivity].
  rewrite forallb_forall in F. specialize (F x Hx). rewrite E in F. replace (g x - - g x) with (2 * g x) in F by ring. rewrite Rltb_false in F by exact Hg. discriminate.
Qed.
Theorem C41_honest_even g : (forall t, g (- t) = g t) -> honest g.
Proof. intros E. split; [intros _; exact E|]. rewrite C41_parity_of_even by exact E. discriminate. Qed.
Theorem C41_honest_odd g : (forall t, g (- t) = - g t) -> (exists x, In x (linspace0 10 256) /\ / 100000 <= Rabs (2 * g x)) -> honest g.
Proof. intros E S. split; [|intros _; exact E]. rewrite (proj2 (C41_parity_of_odd g E) S). discriminate. Qed.
(* the reported parity is right up to the tolerance at every sampled point *)
Theorem C41_parity_at_samples g x : In x (linspace0 10 256) ->
  (parity_function g = 1%Z -> Rabs (g x - g (- x)) < / 100000) /\ (parity_function g = (-1)%Z -> Rabs (g x + g (- x)) < / 100000).
Proof.
  intros Hx. unfold parity_function. cbv zeta. destruct (forallb (fun x => Rltb (Rabs (g x - g (- x))) (/ 100000)) (linspace0 10 256)) eqn:F.
  - split; [intros _|discriminate]. rewrite forallb_forall in F. specialize (F x Hx). unfold Rltb in F. destruct (Rlt_dec _ _); [assumption|discriminate].
  - destruct (forallb (fun x => Rltb (Rabs (g x + g (- x))) (/ 100000)) (linspace0 10 256)) eqn:G; split; try discriminate. intros _. rewrite forallb_forall in G. specialize (G x Hx). unfold Rltb in G. destruct (Rlt_dec _ _); [assumption|discriminate].
Qed.

(* ---- normalize_function ---- *)
Theorem C41_normalize_multiple pts phi : mean (map (fun x => phi x ^ 2) pts) > 0 -> exists c, 0 < c /\ forall t, normalize_function pts phi t = c * phi t.
Proof.
  intros Hm. unfold normalize_function. cbv zeta. destruct (allclose _ _); [exists 1; split; [lra|intros; ring]|]. exists (/ second_moment pts phi). split; [apply Rinv_0_lt_compat, sqrt_lt_R0; exact Hm|]. intros. unfold Rdiv. ring.
Qed.
Theorem C41_normalize_symmetry pts phi : ((forall t, phi (- t) = phi t) -> forall t, normalize_function pts phi (- t) = normalize_function pts phi t) /\ ((forall t, phi (- t) = - phi t) -> forall t, normalize_function pts phi (- t) = - normalize_function pts phi t).
Proof. unfold normalize_function. cbv zeta. destruct (allclose _ _); split; intros E t; rewrite E; unfold Rdiv; ring. Qed.
Lemma mean_scale l k : mean (map (fun t => t * k) l) = mean l * k.
Proof. unfold mean. rewrite map_length. replace (fold_right Rplus 0 (map (fun t => t * k) l)) with (fold_right Rplus 0 l * k); [unfold Rdiv; ring|]. induction l as [|t l IH]; cbn [fold_right map]; [ring|]. rewrite <- IH. ring. Qed.
(* the second moment of the result over the points is 1, up to the tolerance of allclose *)
Theorem C41_normalize_moment pts phi : mean (map (fun x => phi x ^ 2) pts) > 0 -> Rabs (second_moment pts (normalize_function pts phi) - 1) <= / 100000000 + / 100000.
Proof.
  intros Hm. unfold normalize_function. cbv zeta. destruct (allclose (second_moment pts phi) 1) eqn:A.
  - unfold allclose, Rleb in A. destruct (Rle_dec _ _) as [H|]; [|discriminate]. rewrite Rabs_R1, Rmult_1_r in H. exact H.
  - set (c := second_moment pts phi). assert (Hc : 0 < c) by (apply sqrt_lt_R0; exact Hm). unfold second_moment. rewrite (map_ext _ (fun x => phi x ^ 2 * / (c ^ 2))) by (intros; field; lra). rewrite <- (map_map (fun x => phi x ^ 2) (fun t => t * / c ^ 2)), mean_scale.
    rewrite sqrt_mult_alt by lra. change (sqrt (mean (map (fun x => phi x ^ 2) pts))) with c. replace (sqrt (/ c ^ 2)) with (/ c).
    + rewrite Rinv_r by lra. rewrite Rminus_diag_eq, Rabs_R0 by reflexivity. lra.
    + rewrite <- (sqrt_pow2 (/ c)) by (left; now apply Rinv_0_lt_compat). f_equal. field. lra.
Qed.
(* ---- soft_odd, the default function for odd scalars ---- *)
Theorem C41_soft_odd_is_odd t : soft_odd (- t) = - soft_odd t.
Proof. unfold soft_odd. replace ((- t) ^ 2) with (t ^ 2) by ring. ring. Qed.
Lemma soft_odd_10 : 9 <= soft_odd 10.
Proof. unfold soft_odd. assert (H : exp (- 10 ^ 2) <= / 10); [|nra]. rewrite exp_Ropp. apply Rinv_le_contravar; [lra|]. pose proof (exp_ineq1 (10 ^ 2)). nra. Qed.
Lemma in_linspace_10 : In 10 (linspace0 10 256).
Proof. unfold linspace0. apply in_map_iff. exists 255%nat. split; [|apply in_seq; lia]. change (256 - 1)%nat with 255%nat. field. apply not_0_INR. lia. Qed.
Theorem C41_soft_odd_honest pts i : (forall x, In x pts -> Rabs x <= 100) -> mean (map (fun x => soft_odd x ^ 2) pts) > 0 -> parity_function (activate pts true (PyFun i soft_odd)) = (-1)%Z /\ honest (activate pts true (PyFun i soft_odd)).
Proof.
  intros B Hm. set (g := activate pts true (PyFun i soft_odd)). assert (O : forall t, g (- t) = - g t) by (apply (proj2 (C41_normalize_symmetry pts soft_odd)), C41_soft_odd_is_odd).
  assert (Hs : exists x, In x (linspace0 10 256) /\ / 100000 <= Rabs (2 * g x)).
  { exists 10. split; [apply in_linspace_10|]. unfold g. cbn [activate f_ap]. unfold normalize_function. cbv zeta. pose proof soft_odd_10 as S. destruct (allclose _ _).
    - rewrite Rabs_pos_eq by lra. lra.
    - assert (Hc : second_moment pts soft_odd <= 100).
      { unfold second_moment. rewrite <- (sqrt_pow2 100) by lra. apply sqrt_le_1_alt. unfold mean. rewrite map_length. assert (Hb : fold_right Rplus 0 (map (fun x => soft_odd x ^ 2) pts) <= INR (length pts) * 100 ^ 2).
        { clear Hm g O. induction pts as [|x l IH]; [cbn; lra|]. cbn [map fold_right length]. rewrite S_INR. specialize (IH (fun z Hz => B z (or_intror Hz))). pose proof (B x (or_introl eq_refl)) as Bx.
          assert (Hx : soft_odd x ^ 2 <= 100 ^ 2); [|lra]. apply pow_maj_Rabs. unfold soft_odd. rewrite Rabs_mult. assert (E1 : exp (- x ^ 2) <= 1) by (rewrite <- exp_0; destruct (Req_dec x 0) as [->|N]; [right; f_equal; ring|left; apply exp_increasing; assert (0 < x ^ 2) by (destruct (Rdichotomy x 0 N); nra); lra]).
          pose proof (exp_pos (- x ^ 2)) as E2. rewrite (Rabs_pos_eq (1 - _)) by lra. pose proof (Rabs_pos x). nra. }
        destruct pts as [|x l]; [cbn; unfold Rdiv; rewrite Rmult_0_l; nra|]. assert (Hn : 0 < INR (length (x :: l))) by (apply lt_0_INR; cbn; lia). apply (Rmult_le_reg_r (INR (length (x :: l)))); [exact Hn|]. unfold Rdiv. rewrite Rmult_assoc, Rinv_l by lra. lra. }
      assert (Hp : 0 < second_moment pts soft_odd) by (apply sqrt_lt_R0; exact Hm). set (c := second_moment pts soft_odd) in *. assert (Q : 9 / 100 <= soft_odd 10 / c). { unfold Rdiv. apply Rmult_le_compat; try lra. apply Rinv_le_contravar; lra. }
      rewrite Rabs_pos_eq by lra. lra. }
  split; [now apply (proj2 (C41_parity_of_odd g O))|]. now apply C41_honest_odd.
Qed.
