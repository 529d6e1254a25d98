(* The optimised branch: products of the bases of the groups of equal letters of a word. *)
From Coq Require Import Reals Lra Lia List Arith Permutation Sorted ZArith.
From Verif Require Import PyBase PermModel PermProofs IrrepsModel IrrepsProofs IrrepsProofs2 ArrayModel ArrayProofs ArrayOps RechunkProofs LeadModel LeadProofs StackProofs ActProofs EquivProofs EntryProofs LinearProofs ScatterProps SumR S2Proofs3 TPModel TPProofs TPProofs2 RotationModel RotationProofs CGModel WignerModel WignerProofs WignerProofs2 WignerProps WignerProps2 CGComplete SymModel SymProofs SymProofs2 SymProps3 SchurProofs MultProofs CouplingProofs ReducedProofs ConstrainProofs RtpModel RtpSpace RtpTools RtpArr RtpMasks RtpPerm RtpSymModel RtpWords RtpSymmetrize RtpFamily RtpTuples.
From Verif Require GradProofs.
Import ListNotations.
Open Scope R_scope.

(* ---------- masks ---------- *)
Lemma mk_len m (ls : list (list irrep)) z : length ls = length m -> In z (space (mk m ls)) -> length z = length m.
Proof. intros L Hz. apply in_valid, valid_length in Hz. rewrite Hz, tdims_length. apply mk_length, L. Qed.
Lemma dm_length a b u : disjoint_masks a b u -> length a = length u /\ length b = length u.
Proof. induction 1 as [|a b u H [H1 H2]|a b u H [H1 H2]|a b u H [H1 H2]]; cbn; auto. Qed.
Lemma dm_sym a b u : disjoint_masks a b u -> disjoint_masks b a u.
Proof. induction 1; constructor; assumption. Qed.
(* the second and the rest make the complement of the first *)
Lemma dm_rest a b u : disjoint_masks a b u -> disjoint_masks b (map negb u) (map negb a).
Proof. induction 1; cbn [map negb]; constructor; assumption. Qed.
Lemma joinz_assoc M m u a b o : disjoint_masks M m u -> length a = length u -> length b = length u -> length o = length u -> joinz u (joinz M a b) o = joinz M a (joinz m b o).
Proof.
  intros H. revert a b o. induction H as [|M m u H IH|M m u H IH|M m u H IH]; intros [|x a] [|y b] [|k o] La Lb Lo; try discriminate; [reflexivity| | |]; injection La as La; injection Lb as Lb; injection Lo as Lo; cbn [joinz]; rewrite IH by assumption; reflexivity.
Qed.
Lemma joinz_comm M m u a b o : disjoint_masks M m u -> length a = length u -> length b = length u -> length o = length u -> joinz M a (joinz m b o) = joinz m b (joinz M a o).
Proof.
  intros H. revert a b o. induction H as [|M m u H IH|M m u H IH|M m u H IH]; intros [|x a] [|y b] [|k o] La Lb Lo; try discriminate; [reflexivity| | |]; injection La as La; injection Lb as Lb; injection Lo as Lo; cbn [joinz]; rewrite IH by assumption; reflexivity.
Qed.
Inductive submask : list bool -> list bool -> Prop :=
| sm_nil : submask [] []
| sm_both m M : submask m M -> submask (true :: m) (true :: M)
| sm_not b m M : submask m M -> submask (false :: m) (b :: M).
Lemma submask_refl m : submask m m. Proof. induction m as [|[|] m IH]; constructor; exact IH. Qed.
Lemma submask_trans a b c : submask a b -> submask b c -> submask a c.
Proof. intros H. revert c. induction H as [|m M H IH|b m M H IH]; intros c H'; inversion H'; subst; constructor; apply IH; assumption. Qed.
Lemma dm_submask a b u : disjoint_masks a b u -> submask a u /\ submask b u.
Proof. induction 1 as [|a b u H [H1 H2]|a b u H [H1 H2]|a b u H [H1 H2]]; split; constructor; assumption. Qed.
Lemma select_keepz m M z : submask m M -> length z = length M -> select m (keepz M z) = select m z.
Proof. intros H. revert z. induction H as [|m M H IH|b m M H IH]; intros [|k z] L; try discriminate; try reflexivity; injection L as L; cbn [keepz select]; rewrite IH by exact L; reflexivity. Qed.

Section Chain.
Variables (L : list (list irrep)) (keep : option (list irrep)) (Fx : (idx -> R) -> Prop).
Definition Rep (m : list bool) (t : iarray) (f : idx -> R) : Prop := repro (space (mk m L)) (columns (family t)) f.
Lemma repro_subspace {A} (X : list A) S : subspace X (repro X S).
Proof.
  constructor.
  - intros f g E H. exact (repro_ext X S f g E H).
  - intros x _. unfold expand. rewrite lsum_zero; [reflexivity|]. intros s _. unfold dot. rewrite lsum_zero by (intros; ring). ring.
  - intros f g Hf Hg. apply (repro_ext X S (fun x => lsum [f; g] (fun h => 1 * h x))); [intros x _; cbn; ring|]. apply (repro_lsum X S [f; g] (fun _ => 1) (fun h => h)). intros h [<-|[<-|[]]]; assumption.
  - intros c f Hf. exact (repro_scal X S c f Hf).
Qed.
Lemma rep_good m K W t : good (mk m L) K W t -> good (mk m L) (fun _ => True) (Rep m t) t.
Proof.
  intros (C & Ld & SW & [R1 R2 R3 R4 R5 R6]). split; [exact C|]. split; [exact Ld|]. split; [apply repro_subspace|]. constructor; auto.
  - apply Forall_forall. auto.
  - intros s k Hs Hk. apply member_repro; assumption.
Qed.
(* the slices of the tensors of interest are in W *)
Definition slices_in (M : list bool) (W : (idx -> R) -> Prop) : Prop := forall T, covariant (space L) (rho L) T -> passes keep (fst T) = true -> (forall k, (k < ir_dim (fst T))%nat -> Fx (comp T k)) ->
  forall o k, In o (space (mk (map negb M) L)) -> (k < ir_dim (fst T))%nat -> W (fun a => snd T (joinz M a o) k).
(* the elements of W only depend on the contents of the groups *)
Definition insensitive (M : list bool) (W : (idx -> R) -> Prop) (ms : list (list bool)) : Prop := forall f, W f -> forall z z', In z (space (mk M L)) -> In z' (space (mk M L)) -> (forall m, In m ms -> Permutation (select m z) (select m z')) -> f z = f z'.
Record state (M : list bool) (K : irrep -> Prop) (W : (idx -> R) -> Prop) (ms : list (list bool)) (t : iarray) : Prop := {
  st_good : good (mk M L) K W t;
  st_slices : slices_in M W;
  st_ins : insensitive M W ms;
  st_sub : forall m, In m ms -> submask m M }.
Lemma state_step kp M m u W Wt ms t cur : length L = length u -> disjoint_masks M m u -> state M (fun _ => True) W ms cur -> state m (fun _ => True) Wt [m] t ->
  exists y W', reduce_basis_product cur t kp = Ok y /\ state u (fun c => passes kp c = true) W' (ms ++ [m]) y.
Proof.
  intros Lu DM [G1 S1 I1 B1] [G2 S2 I2 B2]. destruct (dm_length _ _ _ DM) as [LM Lm].
  destruct (product_step kp M m u L _ W cur _ Wt t DM Lu G1 G2 (fun _ _ _ _ => Logic.I) (fun _ _ _ _ => Logic.I)) as (y & Ey & _ & Gy). eexists y, _. split; [exact Ey|].
  pose proof (masked_product M m u L DM Lu) as PS. pose proof (dm_rest _ _ _ DM) as D1. pose proof (dm_rest _ _ _ (dm_sym _ _ _ DM)) as D2.
  assert (LnM : length L = length (map negb M)) by (rewrite map_length; congruence). assert (Lnm : length L = length (map negb m)) by (rewrite map_length; congruence). assert (Lnu : length L = length (map negb u)) by (rewrite map_length; congruence).
  constructor.
  - exact Gy.
  - intros T CT KT FT o k Ho Hk. assert (Lo : length o = length u) by (apply (mk_len (map negb u) L) in Ho; [rewrite map_length in Ho; exact Ho|exact Lnu]). split.
    + intros b Hb. assert (Lb : length b = length u) by (apply (mk_len m L) in Hb; congruence). destruct G1 as (_ & _ & SW & _). apply (sub_ext _ _ SW (fun a => snd T (joinz M a (joinz m b o)) k)).
      * intros a Ha. rewrite (joinz_assoc M m u) by (try exact DM; try assumption; apply (mk_len M L) in Ha; congruence). reflexivity.
      * apply (S1 T CT KT FT); [|exact Hk]. apply (ps_in _ _ _ _ _ _ _ _ _ (masked_product _ _ _ L D1 LnM)); assumption.
    + intros a Ha. assert (La : length a = length u) by (apply (mk_len M L) in Ha; congruence). destruct G2 as (_ & _ & SW & _). apply (sub_ext _ _ SW (fun b => snd T (joinz m b (joinz M a o)) k)).
      * intros b Hb. rewrite (joinz_assoc M m u) by (try exact DM; try assumption; apply (mk_len m L) in Hb; congruence). rewrite (joinz_comm M m u) by (try exact DM; try assumption; apply (mk_len m L) in Hb; congruence). reflexivity.
      * apply (S2 T CT KT FT); [|exact Hk]. apply (ps_in _ _ _ _ _ _ _ _ _ (masked_product _ _ _ L D2 Lnm)); assumption.
  - intros f [W1 W2] z z' Hz Hz' P. assert (Lz : length z = length u) by (apply (mk_len u L); assumption). assert (Lz' : length z' = length u) by (apply (mk_len u L); assumption).
    pose proof (ps_ia _ _ _ _ _ _ _ _ _ PS) as Ia. pose proof (ps_ib _ _ _ _ _ _ _ _ _ PS) as Ib. rewrite <- (ps_z _ _ _ _ _ _ _ _ _ PS z Hz), <- (ps_z _ _ _ _ _ _ _ _ _ PS z' Hz').
    transitivity (f (joinz M (keepz M z') (keepz m z))).
    + apply (I1 (fun a => f (joinz M a (keepz m z))) (W1 _ (Ib z Hz)) (keepz M z) (keepz M z') (Ia z Hz) (Ia z' Hz')). intros m' Hm'. rewrite !(select_keepz m' M) by (try apply B1; try assumption; congruence). apply P, in_or_app. left. exact Hm'.
    + apply (I2 (fun b => f (joinz M (keepz M z') b)) (W2 _ (Ia z' Hz')) (keepz m z) (keepz m z') (Ib z Hz) (Ib z' Hz')). intros m' [<-|[]]. rewrite !(select_keepz m m) by (try apply submask_refl; congruence). apply P, in_or_app. right. left. reflexivity.
  - destruct (dm_submask _ _ _ DM) as [Q1 Q2]. intros m' Hm'. apply in_app_or in Hm' as [Hm'|[<-|[]]]; [|exact Q2]. exact (submask_trans _ _ _ (B1 m' Hm') Q1).
Qed.
(* the chain of products: the next mask, the union and the next term *)
Fixpoint chained (M : list bool) (steps : list (list bool * list bool * iarray)) (U : list bool) : Prop :=
  match steps with
  | [] => U = M
  | (m, u, t) :: steps => disjoint_masks M m u /\ (exists Wt, state m (fun _ => True) Wt [m] t) /\ chained u steps U
  end.
Lemma chained_length M steps U : chained M steps U -> length U = length M.
Proof. revert M. induction steps as [|[[m u] t] steps IH]; intros M H; [cbn in H; subst; reflexivity|]. destruct H as (D & _ & H). rewrite (IH u H). apply dm_length in D as [D _]. congruence. Qed.
Theorem multiply_state M steps U W ms cur : length L = length M -> steps <> [] -> chained M steps U -> state M (fun _ => True) W ms cur ->
  exists y W', multiply cur (map snd steps) keep = Ok y /\ state U (fun c => passes keep c = true) W' (ms ++ map (fun q => fst (fst q)) steps) y.
Proof.
  revert M W ms cur. induction steps as [|[[m u] t] steps IH]; intros M W ms cur LM N C S0; [contradiction|]. destruct C as (D & (Wt & St) & C). pose proof (dm_length _ _ _ D) as [LD _]. assert (Lu : length L = length u) by congruence. destruct steps as [|q steps].
  - cbn [map snd multiply fst]. cbn [chained] in C. subst U. destruct (state_step keep M m u W Wt ms t cur Lu D S0 St) as (y & W' & E & Sy). exists y, W'. split; [exact E|exact Sy].
  - destruct (state_step None M m u W Wt ms t cur Lu D S0 St) as (y & W' & E & [Gy1 Gy2 Gy3 Gy4]). change (multiply cur (map snd ((m, u, t) :: q :: steps)) keep) with (let! c := reduce_basis_product cur t None in multiply c (map snd (q :: steps)) keep). rewrite E. cbn [bind].
    destruct (IH u W' (ms ++ [m]) y Lu ltac:(discriminate) C) as (z & W'' & E' & Sz).
    + constructor; auto. destruct Gy1 as (C1 & C2 & C3 & C4). split; [exact C1|]. split; [exact C2|]. split; [exact C3|]. refine (reduced_keep_iff _ _ _ _ _ _ _ C4). intros c. split; auto.
    + exists z, W''. split; [exact E'|]. cbn [map fst]. rewrite <- app_assoc in Sz. exact Sz.
Qed.
End Chain.

(* ---------- one group of letters ---------- *)
Lemma select_app' {T} m1 m2 (l1 l2 : list T) : length m1 = length l1 -> select (m1 ++ m2) (l1 ++ l2) = select m1 l1 ++ select m2 l2.
Proof. revert l1. induction m1 as [|b m1 IH]; intros [|a l1] E; try discriminate; [reflexivity|]. injection E as E. cbn [app select]. rewrite IH by exact E. destruct b; reflexivity. Qed.
Lemma select_false {T} (l : list T) : select (repeat false (length l)) l = [].
Proof. induction l as [|a l IH]; [reflexivity|]. exact IH. Qed.
Lemma select_true {T} (l : list T) : select (repeat true (length l)) l = l.
Proof. induction l as [|a l IH]; [reflexivity|]. cbn [length repeat select]. rewrite IH. reflexivity. Qed.
Lemma mk_app m1 m2 l1 l2 : length m1 = length l1 -> mk (m1 ++ m2) (l1 ++ l2) = mk m1 l1 ++ mk m2 l2.
Proof. revert l1. induction m1 as [|b m1 IH]; intros [|a l1] E; try discriminate; [reflexivity|]. injection E as E. cbn [app mk]. rewrite IH by exact E. reflexivity. Qed.
Lemma mk_none l : mk (repeat false (length l)) l = repeat [e0] (length l).
Proof. induction l as [|a l IH]; [reflexivity|]. cbn [length repeat mk]. rewrite IH. reflexivity. Qed.
Lemma unsel_app m1 m2 y : unsel (repeat false m1 ++ m2) y = repeat 0%nat m1 ++ unsel m2 y.
Proof. induction m1 as [|m1 IH]; [reflexivity|]. cbn [repeat app unsel]. rewrite IH. reflexivity. Qed.
Lemma unsel_true p m y : length y = p -> unsel (repeat true p ++ m) y = y ++ unsel m [].
Proof. revert y. induction p as [|p IH]; intros [|k y] E; try discriminate; [reflexivity|]. injection E as E. cbn [repeat app unsel]. rewrite IH by exact E. reflexivity. Qed.
Lemma unsel_none m : unsel (repeat false m) [] = repeat 0%nat m.
Proof. induction m as [|m IH]; [reflexivity|]. cbn [repeat unsel]. rewrite IH. reflexivity. Qed.
Lemma joinz_app m1 m2 a1 a2 b1 b2 : length a1 = length m1 -> length b1 = length m1 -> joinz (m1 ++ m2) (a1 ++ a2) (b1 ++ b2) = joinz m1 a1 b1 ++ joinz m2 a2 b2.
Proof. revert a1 b1. induction m1 as [|c m1 IH]; intros [|x a1] [|y b1] E E'; try discriminate; [reflexivity|]. injection E as E. injection E' as E'. cbn [app joinz]. rewrite IH by assumption. reflexivity. Qed.
Lemma joinz_false m a b : length a = m -> length b = m -> joinz (repeat false m) a b = b.
Proof. revert a b. induction m as [|m IH]; intros [|x a] [|y b] E E'; try discriminate; [reflexivity|]. injection E as E. injection E' as E'. cbn [repeat joinz]. rewrite IH by assumption. reflexivity. Qed.
Lemma joinz_true m a b : length a = m -> length b = m -> joinz (repeat true m) a b = a.
Proof. revert a b. induction m as [|m IH]; intros [|x a] [|y b] E E'; try discriminate; [reflexivity|]. injection E as E. injection E' as E'. cbn [repeat joinz]. rewrite IH by assumption. reflexivity. Qed.
Lemma reduced_member {A} (X : list A) rh K W Ls f : reduced X rh K W Ls -> subspace X W -> repro X (columns Ls) f -> W f.
Proof.
  intros HR SW H. apply (sub_ext X W SW (expand X (columns Ls) f)); [exact H|]. unfold expand. apply (sub_lsum X W (columns Ls) (fun s => dot X f s) (fun s => s) SW). intros s Hs. unfold columns in Hs. apply in_flat_map in Hs as (t & Ht & Hs). apply in_map_iff in Hs as (k & <- & Hk). apply in_seq in Hk. apply (red_in X rh K W Ls HR t k Ht). lia.
Qed.
Section Group.
Variables (A B : list (list irrep)) (c : irrep) (p : nat) (keep : option (list irrep)) (Fx : (idx -> R) -> Prop) (K : irrep -> Prop) (W : (idx -> R) -> Prop) (t : iarray).
Notation L := (A ++ repeat [c] p ++ B).
Notation m := (repeat false (length A) ++ repeat true p ++ repeat false (length B)).
Hypothesis Gt : good (repeat [c] p) K W t.
Hypothesis HW : forall f, W f <-> (forall y y', In y (space (repeat [c] p)) -> In y' (space (repeat [c] p)) -> Permutation y y' -> f y = f y').
Hypothesis HK : forall a u d, passes keep a = true -> reach e0 (mk (map negb m) L) u -> In d (ir_mul a u) -> K d.
Hypothesis HF : forall f b1 y y' b3, Fx f -> length b1 = length A -> length y = p -> Permutation y y' -> In (b1 ++ y ++ b3) (space L) -> In (b1 ++ y' ++ b3) (space L) -> f (b1 ++ y ++ b3) = f (b1 ++ y' ++ b3).
Lemma group_len : length L = length m.
Proof. rewrite !app_length, !repeat_length. reflexivity. Qed.
Lemma group_select : select m L = repeat [c] p.
Proof.
  rewrite select_app' by apply repeat_length. rewrite select_false. cbn [app]. rewrite select_app' by (rewrite !repeat_length; reflexivity). rewrite select_false, app_nil_r. rewrite <- (repeat_length [c] p) at 1. apply select_true.
Qed.
Lemma group_shape : tdims (mk m L) = repeat 1%nat (length A) ++ lead t ++ repeat 1%nat (length B).
Proof.
  destruct Gt as (_ & E & _). rewrite E. rewrite mk_app by apply repeat_length. rewrite mk_app by (rewrite !repeat_length; reflexivity). rewrite !mk_none. rewrite <- (repeat_length [c] p) at 1. rewrite mk_all. unfold tdims. rewrite !map_app, !map_repeat. reflexivity.
Qed.
Lemma group_space y : In y (space (repeat [c] p)) -> In (unsel m y) (space (mk m L)) /\ select m (unsel m y) = y.
Proof.
  intros Hy. rewrite <- group_select in Hy. rewrite (select_space m L group_len) in Hy. apply in_map_iff in Hy as (z & <- & Hz). rewrite (unsel_select m L z group_len Hz). split; [exact Hz|reflexivity].
Qed.
Lemma group_join (y b : list nat) : length y = p -> length b = length m -> exists b1 b3 : list nat, length b1 = length A /\ forall y', length y' = p -> joinz m (unsel m y') b = b1 ++ y' ++ b3.
Proof.
  intros Ly Lb. rewrite !app_length, !repeat_length in Lb. exists (firstn (length A) b), (skipn p (skipn (length A) b)). split; [rewrite firstn_length; lia|]. intros y' Ly'. rewrite <- (firstn_skipn (length A) b) at 1. rewrite <- (firstn_skipn p (skipn (length A) b)) at 1.
  rewrite unsel_app, unsel_true by exact Ly'. rewrite unsel_none. assert (L1 : length (firstn (length A) b) = length A) by (rewrite firstn_length; lia). assert (L2 : length (firstn p (skipn (length A) b)) = p) by (rewrite firstn_length, skipn_length; lia). assert (L3 : length (skipn p (skipn (length A) b)) = length B) by (rewrite !skipn_length; lia).
  rewrite joinz_app by (rewrite !repeat_length; auto). rewrite joinz_false by (rewrite ?repeat_length; auto). f_equal. rewrite joinz_app by (rewrite !repeat_length; auto). rewrite joinz_true by auto. f_equal. apply joinz_false; [apply repeat_length|exact L3].
Qed.
Theorem group_state : exists y, ia_reshape t (repeat 1%nat (length A) ++ lead t ++ repeat 1%nat (length B)) = Ok y /\ state L keep Fx m (fun _ => True) (Rep L m y) [m] y.
Proof.
  pose proof group_len as LL. pose proof Gt as Gt'. rewrite <- group_select in Gt'. destruct (good_reshape m L K W t LL Gt') as (y & Ey & Gy). rewrite group_shape in Ey. exists y. split; [exact Ey|]. destruct Gy as (Cy & Ldy & SWy & Ry). pose proof (mk_all L) as Mk.
  constructor.
  - apply (rep_good L m K (lifted m W)). split; auto.
  - intros T CT KT FT o k Ho Hk. destruct (space_full (mk (map negb m) L)) as (Fb & FF & FT').
    assert (PS : product_space (space (mk m L)) (space (mk (map negb m) L)) (space L) (rho (mk m L)) (rho (mk (map negb m) L)) (rho L) (keepz m) (keepz (map negb m)) (joinz m)) by (pose proof (masked_product m (map negb m) (repeat true (length m)) L (negb_disjoint m) ltac:(rewrite repeat_length; exact LL)) as PS; rewrite <- LL, Mk in PS; exact PS).
    refine (slice_repro _ _ _ _ _ _ _ _ _ PS (space_preserving _) K (lifted m W) (family y) Fb T Ry SWy FF CT _ _ o k Ho Hk).
    + intros u d Hu Hd. apply (HK (fst T) (fst u) d KT); [|exact Hd]. apply (FT' u e0 (fst u) Hu). apply ir_mul_in. cbn [e0 ir_l ir_p]. split; [destruct (ir_p (fst u)); reflexivity|lia].
    + intros b k' Hb Hk'. unfold lifted. apply HW. intros z z' Hz Hz' P. assert (Lb : length b = length m) by (apply (mk_len (map negb m) L) in Hb; rewrite ?map_length in *; auto).
      assert (Lz : length z = p) by (apply in_valid, valid_length in Hz; rewrite Hz, tdims_length; apply repeat_length). destruct (group_join z b Lz Lb) as (b1 & b3 & L1 & J). assert (Lz' : length z' = p) by (apply Permutation_length in P; congruence).
      destruct (group_space z Hz) as [Z1 _], (group_space z' Hz') as [Z1' _]. pose proof (ps_in _ _ _ _ _ _ _ _ _ PS _ b Z1 Hb) as I1. pose proof (ps_in _ _ _ _ _ _ _ _ _ PS _ b Z1' Hb) as I1'. rewrite (J z Lz) in *. rewrite (J z' Lz') in *. apply (HF (comp T k')); auto.
  - intros f Hf z z' Hz Hz' P. specialize (P m (or_introl eq_refl)). assert (Wf : lifted m W f) by exact (reduced_member _ _ _ _ _ f Ry SWy Hf). unfold lifted in Wf. rewrite HW in Wf. rewrite <- (unsel_select m L z LL Hz), <- (unsel_select m L z' LL Hz'). apply Wf; [| |exact P]; rewrite <- group_select, (select_space m L LL); apply in_map; assumption.
  - intros m' [<-|[]]. apply submask_refl.
Qed.
End Group.
