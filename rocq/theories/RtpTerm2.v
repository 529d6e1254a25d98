(* The optimised branch: the powers of one irrep and their products. *)
From Coq Require Import Reals Lra Lia List Arith Permutation Sorted ZArith.
From Verif Require Import PyBase PermModel PermProofs IrrepsModel IrrepsProofs IrrepsProofs2 ArrayModel ArrayProofs ArrayOps RechunkProofs LeadModel LeadProofs StackProofs ActProofs EquivProofs EntryProofs LinearProofs ScatterProps SumR S2Proofs3 TPModel TPProofs TPProofs2 RotationModel RotationProofs CGModel WignerModel WignerProofs WignerProofs2 WignerProps WignerProps2 CGComplete MathModel GSProofs BasisProofs MathProps2 BasisProofs2 SymModel SymProofs SymProofs2 SymProps SymProps2 SymProps3 SchurProofs MultProofs CouplingProofs ReducedProofs ConstrainProofs RtpModel RtpSpace RtpTools RtpArr RtpMasks RtpPerm RtpSymModel RtpWords RtpSymmetrize RtpFamily RtpTuples RtpChain RtpMain RtpTerm.
From Verif Require GradProofs RtpProps.
Import ListNotations.
Open Scope R_scope.
Local Notation one := (map (fun ir : irrep => (1%nat, ir))).

Lemma good_weaken ls K K' W W' b : (forall c, K c <-> K' c) -> (forall f, W f <-> W' f) -> good ls K W b -> good ls K' W' b.
Proof.
  intros HK HW (C & Ld & SW & HR). split; [exact C|]. split; [exact Ld|]. split.
  - constructor.
    + intros f g E H. apply HW. apply HW in H. exact (sub_ext _ _ SW f g E H).
    + apply HW, (sub_zero _ _ SW).
    + intros f g Hf Hg. apply HW. apply HW in Hf, Hg. exact (sub_plus _ _ SW f g Hf Hg).
    + intros c f Hf. apply HW. apply HW in Hf. exact (sub_scal _ _ SW c f Hf).
  - apply (reduced_keep_iff _ _ K K' W' _ HK). apply (reduced_weaken _ _ K W W' _ HW). exact HR.
Qed.
Lemma sym_group n : exists g, symmetric_perm_repr n = Ok g /\ signed_group n g /\ NoDup g /\ (n = 1%nat -> length g = 1%nat) /\ (forall s p, In (s, p) g <-> s = 1%Z /\ is_perm p = true /\ length p = n).
Proof.
  destruct (C50_symmetric n (repeat 1%nat n) (repeat_length _ _)) as (g & base & Eg & Gg & _).
  { intros d Hd. destruct n; [contradiction|]. apply repeat_spec in Hd. subst d. reflexivity. }
  pose proof Eg as Eg'. unfold symmetric_perm_repr in Eg'. destruct (group_ok n) as (l & El & Nl & Ll & Hl). rewrite El in Eg'. cbn [bind] in Eg'. assert (E : g = map (fun p => (1%Z, p)) l) by congruence.
  exists g. split; [exact Eg|]. split; [exact Gg|]. split; [rewrite E; apply FinFun.Injective_map_NoDup; [intros p q Q; congruence|exact Nl]|]. split; [intros ->; rewrite E, map_length; exact Ll|].
  intros s p. rewrite E, in_map_iff. split; [intros (q & Q & Hq); injection Q as <- <-; apply Hl in Hq; tauto|]. intros (-> & P & L). exists p. split; [reflexivity|apply Hl; auto].
Qed.
(* invariance under the symmetric group: only the set of coordinates with multiplicities matters *)
Lemma symmetric_insensitive n d g f : (forall s p, In (s, p) g <-> s = 1%Z /\ is_perm p = true /\ length p = n) ->
  invariant g (repeat d n) f <-> (forall y y', In y (all_idx (repeat d n)) -> In y' (all_idx (repeat d n)) -> Permutation y y' -> f y = f y').
Proof.
  intros Hg. assert (Lv : forall y, valid (repeat d n) y -> length y = n) by (intros y Hy; apply valid_length in Hy; rewrite Hy; apply repeat_length). split.
  - intros H y y' Hy Hy' P. apply all_idx_valid in Hy, Hy'. destruct (perm_permute y y' (Permutation_sym P)) as (q & Pq & Lq & <-). rewrite (H 1%Z q y); [ring|apply Hg; rewrite (Lv y Hy) in Lq; auto|exact Hy].
  - intros H s p x Hp Vx. apply Hg in Hp as (-> & P & L). rewrite Rmult_1_l. apply H.
    + apply all_idx_valid, permute_valid; auto; [rewrite repeat_length; exact L|]. apply (nth_ext _ _ 0%nat 0%nat); [rewrite permute_length, repeat_length; exact L|]. intros k Hk. rewrite permute_length in Hk. rewrite permute_nth by exact Hk. assert (Q : (nth k p 0 < n)%nat) by (rewrite <- L; apply perm_nth_lt; assumption). rewrite !RtpProps.nth_repeat_at by lia. reflexivity.
    + apply all_idx_valid, Vx.
    + unfold permute. apply is_perm_iff in P. rewrite L, <- (Lv x Vx) in P. apply (Permutation_map (fun i => nth i x 0%nat)) in P. rewrite map_nth_all in P. exact P.
Qed.
Lemma pow_prod d n : prod (repeat d n) = (d ^ n)%nat.
Proof. induction n as [|n IH]; [reflexivity|]. cbn [repeat]. rewrite prod_cons, IH. reflexivity. Qed.
Lemma dims_in c cs : In c cs -> (ir_dim c <= dims cs)%nat.
Proof. induction cs as [|a cs IH]; intros H; [contradiction|]. rewrite dims_cons. destruct H as [-> |H]; [lia|]. specialize (IH H). lia. Qed.

Section Power.
Variables (eigh : list (list R) -> list R * list (list R)) (eps : R) (cs : list irrep) (n : nat) (keep : option (list irrep)).
Hypothesis Ev : forall d b1 b2, of_width d b1 -> of_width d b2 -> eigen_ok (length b1 + length b2) (overlap b1 b2) (fst (eigh (overlap b1 b2))) (snd (eigh (overlap b1 b2))).
Hypothesis He : 0 < eps <= 1.
Hypothesis Sm : 4 * INR (prod (repeat (dims cs) n)) * (eps * eps) < 1.
Definition insens (c : irrep) (m : nat) (f : idx -> R) : Prop := forall y y', In y (space (repeat [c] m)) -> In y' (space (repeat [c] m)) -> Permutation y y' -> f y = f y'.
Definition kept (m : nat) (d : irrep) : Prop := passes (tp_ir_seq keep (one (tp_ir_seq_pow (one cs) (n - m)))) d = true.
Lemma power_ok c m : In c cs -> (1 <= m <= n)%nat -> exists t, power_basis eigh eps (fun v => v) cs n keep c m = Ok t /\ good (repeat [c] m) (kept m) (insens c m) t.
Proof.
  intros Hc Hm. destruct (sym_group m) as (g & Eg & Gg & Nd & G1 & Hg). set (x := [(1%nat, c)]). assert (Lr : length (repeat x m) = m) by apply repeat_length. pose proof (RtpProps.repeat_compatible (fun _ _ _ => Err RuntimeError) g x m Gg) as Co.
  assert (Dx : dim x = ir_dim c) by (unfold x; cbn; lia). assert (Dc : (0 < ir_dim c)%nat) by (unfold ir_dim; lia).
  set (k := tp_ir_seq keep (one (tp_ir_seq_pow (one cs) (n - m)))).
  destruct (rtp_ok eigh eps Ev He (fun _ _ _ => Err RuntimeError) (S m) true (repeat x m) g k) as (b & Eb & Rb & _); [lia| | |].
  - right. left. apply Forall_forall. intros y Hy. apply repeat_spec in Hy. subst y. cbn. lia.
  - constructor; [rewrite Lr; exact Gg|exact Nd|exact Co| |lia|intros Q; apply (f_equal (@length _)) in Q; cbn in Q; lia]. right. split; [apply Forall_forall; intros y Hy; apply repeat_spec in Hy; subst y; lia|].
    eapply Rle_lt_trans; [|exact Sm]. apply Rmult_le_compat_r; [nra|]. apply Rmult_le_compat_l; [lra|]. apply le_INR. rewrite map_repeat, !pow_prod, Dx. pose proof (dims_in c cs Hc) as Dl. transitivity (dims cs ^ m)%nat; [apply Nat.pow_le_mono_l, Dl|apply Nat.pow_le_mono_r; lia].
  - exists b. unfold power_basis, rtp_symmetric. rewrite Eg. cbn [bind]. split; [exact Eb|]. unfold found in Rb. assert (Fl : flats (repeat x m) = repeat [c] m) by (unfold flats; rewrite map_repeat; reflexivity). rewrite Fl in Rb. refine (good_weaken _ _ _ _ _ _ _ _ Rb); [intros d; reflexivity|].
    intros f. unfold symmetric_under, insens, space. assert (E1 : map dim (repeat x m) = repeat (ir_dim c) m) by (rewrite map_repeat, Dx; reflexivity). assert (E2 : tdims (repeat [c] m) = repeat (ir_dim c) m) by (unfold tdims; rewrite map_repeat, dims_one; reflexivity). rewrite E1, E2. apply symmetric_insensitive, Hg.
Qed.
End Power.
