(* constrain_rotation_basis_by_permutation_basis as a function on IrrepsArrays. *)
From Coq Require Import Reals Lra Lia List Arith Permutation.
From Verif Require Import PyBase PermModel PermProofs IrrepsModel IrrepsProofs IrrepsProofs2 ArrayModel ArrayProofs ArrayOps RechunkProofs LeadModel LeadProofs StackProofs ActProofs EquivProofs EntryProofs LinearProofs ScatterProps SumR S2Proofs3 TPModel TPProofs TPProofs2 TPProofs3 RotationModel RotationProofs CGModel WignerModel WignerProofs WignerProofs2 WignerProps WignerProps2 CGComplete MathModel GSProofs BasisProofs MathProps2 BasisProofs2 SchurProofs MultProofs CouplingProofs ReducedProofs ConstrainProofs RtpModel RtpSpace RtpTools RtpArr RtpConstrain.
Import ListNotations.
Open Scope R_scope.

(* ---------- the set of irreps ---------- *)
Lemma insert_ir_in a l b : In b (insert_ir a l) <-> b = a \/ In b l.
Proof.
  induction l as [|c l IH]; cbn [insert_ir]; [cbn [In]; intuition|]. destruct (irrep_eqb a c) eqn:E.
  - apply irrep_eqb_eq in E. subst. cbn [In]. intuition.
  - destruct (ir_ltb c a); cbn [In]; [rewrite IH|]; intuition.
Qed.
Inductive increasing : list irrep -> Prop := inc_nil : increasing [] | inc_cons a l : Forall (fun b => ir_ltb a b = true) l -> increasing l -> increasing (a :: l).
Lemma insert_ir_increasing a l : increasing l -> increasing (insert_ir a l).
Proof.
  induction 1 as [|c l F H IH]; cbn [insert_ir]; [constructor; constructor|]. destruct (irrep_eqb a c) eqn:E; [constructor; assumption|]. destruct (ir_ltb c a) eqn:L.
  - constructor; [|exact IH]. apply Forall_forall. intros b Hb. apply insert_ir_in in Hb as [-> |Hb]; [exact L|]. rewrite Forall_forall in F. apply F, Hb.
  - assert (La : ir_ltb a c = true) by (destruct (ir_ltb_total a c) as [Q|[Q|Q]]; [exact Q|apply irrep_eqb_eq in Q; congruence|congruence]).
    constructor; [|constructor; assumption]. constructor; [exact La|]. apply Forall_forall. intros b Hb. rewrite Forall_forall in F. exact (ir_ltb_trans _ _ _ La (F b Hb)).
Qed.
Lemma increasing_nodup l : increasing l -> NoDup l.
Proof. induction 1 as [|a l F H IH]; constructor; [|exact IH]. intros I. rewrite Forall_forall in F. pose proof (F a I) as Q. rewrite ir_ltb_irrefl in Q. discriminate. Qed.
Lemma ir_set_nodup x : NoDup (ir_set x).
Proof. apply increasing_nodup. unfold ir_set. induction (map snd x) as [|a l IH]; [constructor|]. cbn [fold_right]. apply insert_ir_increasing, IH. Qed.
Lemma ir_set_in x ir : In ir (ir_set x) <-> exists m, In m x /\ snd m = ir.
Proof.
  unfold ir_set. transitivity (In ir (map snd x)); [|rewrite in_map_iff; split; intros (m & A & B); exists m; auto].
  induction (map snd x) as [|a l IH]; [reflexivity|]. cbn [fold_right]. rewrite insert_ir_in, IH. cbn [In]. intuition.
Qed.
Lemma eplets_in x a k u : (k < length x)%nat -> (u < fst (nth k x dflt))%nat -> In (epl x a k u) (eplets x a).
Proof. intros Hk Hu. apply in_flat_map. exists k. split; [apply in_seq; lia|]. apply in_map, in_seq. lia. Qed.
Lemma eplets_inv x a t : In t (eplets x a) -> exists k u, (k < length x)%nat /\ (u < fst (nth k x dflt))%nat /\ t = epl x a k u.
Proof. intros H. apply in_flat_map in H as (k & Hk & H). apply in_map_iff in H as (u & <- & Hu). apply in_seq in Hk, Hu. exists k, u. repeat split; lia. Qed.

(* ---------- the chunks of one irrep ---------- *)
Lemma chunk_rows_tab s m c z : wf_opt s m c -> valid s z -> chunk_rows m c z = tab2 (fst m) (ir_dim (snd m)) (centry c z).
Proof.
  intros W Hz. destruct c as [c|]; cbn [chunk_rows].
  - destruct W as (_ & _ & _ & W). destruct (W z Hz) as [L F]. unfold centry. symmetry. apply tab2_nth; assumption.
  - unfold tab2, zeros_rows. generalize (ir_dim (snd m)) as d, (fst m) as n. intros d n. assert (T : forall A (a : A) n k, map (fun _ => a) (seq k n) = repeat a n) by (clear; intros A a n; induction n as [|n IH]; intros k; [reflexivity|cbn [seq map repeat]; rewrite IH; reflexivity]).
    unfold tab, centry. rewrite T, T. reflexivity.
Qed.
Lemma combine_index {T U} (l : list T) (l' : list U) d d' : length l = length l' -> combine l l' = map (fun k => (nth k l d, nth k l' d')) (seq 0 (length l)).
Proof. intros E. rewrite <- (map_nth_all (combine l l') (d, d')). rewrite combine_length, <- E, Nat.min_id. apply map_ext_in. intros k Hk. apply combine_nth, E. Qed.
Lemma members_flat_map {S} (f : S -> list (mult idx)) l ir : members (flat_map f l) ir = flat_map (fun s => members (f s) ir) l.
Proof. unfold members. rewrite TPProofs3.filter_flat_map, map_flat_map. reflexivity. Qed.
Lemma members_block x a k n ir : members (map (epl x a k) (seq 0 n)) ir = if irrep_eqb ir (snd (nth k x dflt)) then map (fun u z c => entry x (a z) k u c) (seq 0 n) else [].
Proof.
  unfold members. rewrite (filter_true_map (epl x a k) _ (fun _ => irrep_eqb ir (snd (nth k x dflt)))) by (intros; apply irrep_eqb_sym). destruct (irrep_eqb ir (snd (nth k x dflt))).
  - assert (F : forall l : list nat, filter (fun _ => true) l = l) by (induction l as [|q l IH]; [reflexivity|cbn [filter]; rewrite IH; reflexivity]). rewrite F, map_map. reflexivity.
  - assert (F : forall l : list nat, filter (fun _ => false) l = []) by (induction l as [|q l IH]; [reflexivity|exact IH]). rewrite F. reflexivity.
Qed.
Lemma rot_basis_members x ir z : coherent x -> In z (all_idx (lead x)) -> rot_basis x ir z = map (fun f => map (f z) (seq 0 (ir_dim ir))) (members (eplets (irr x) (arr x)) ir).
Proof.
  intros H Hz. apply in_valid in Hz. pose proof (chunks_wf x H) as W. unfold rot_basis, eplets. rewrite (combine_index _ _ dflt None) by (eapply Forall2_length, W). rewrite flat_map_map, members_flat_map, map_flat_map.
  rewrite !flat_map_concat_map. f_equal. apply map_ext_in. intros k Hk. apply in_seq in Hk. rewrite members_block. destruct (irrep_eqb ir (snd (nth k (irr x) dflt))) eqn:E; [|reflexivity]. apply irrep_eqb_eq in E.
  assert (Wk : wf_opt (lead x) (nth k (irr x) dflt) (nth k (chunks x) None)).
  { clear -W Hk. revert k Hk. induction W as [|m c y cs Hc W IH]; intros k Hk; [cbn in Hk; lia|]. destruct k as [|k]; [exact Hc|]. cbn [nth]. apply IH. cbn in Hk. lia. }
  rewrite (chunk_rows_tab _ _ _ z Wk Hz). unfold tab2, tab. rewrite map_map. rewrite <- E. apply map_ext_in. intros u Hu. apply in_seq in Hu. apply map_ext_in. intros c Hc. apply in_seq in Hc.
  apply entry_chunks; [exact H|exact Hz|]. exists (fst (nth k (irr x) dflt)), ir. split; [|lia]. rewrite (nth_error_nth' (irr x) dflt) by lia. rewrite E. destruct (nth k (irr x) dflt); reflexivity.
Qed.
Lemma ir_count_count x ir : ir_count (irr x) ir = count (eplets (irr x) (arr x)) ir.
Proof.
  unfold count, eplets. rewrite members_flat_map. unfold ir_count. rewrite <- (map_nth_all (irr x) dflt) at 1. rewrite map_map. induction (seq 0 (length (irr x))) as [|k l IH]; [reflexivity|]. cbn [map flat_map]. rewrite app_length, <- IH, members_block. cbn [sum fold_right]. f_equal. destruct (irrep_eqb ir (snd (nth k (irr x) dflt))); [rewrite map_length, seq_length|]; reflexivity.
Qed.

(* ---------- the whole function ---------- *)
Section Whole.
Variables (x : iarray) (s : shape) (rh : mat -> idx -> idx -> R) (K : irrep -> Prop) (W W0 : (idx -> R) -> Prop) (Sp : list (idx -> R)).
Hypothesis Cx : coherent x.
Hypothesis Lx : lead x = s.
Hypothesis Px : positive (irr x).
Let X := all_idx s.
Hypothesis Pr : preserving X rh.
Hypothesis Adj : adjoint X rh.
Hypothesis OS : orthonormal_list X Sp.
Hypothesis WS : forall f, W f <-> repro X Sp f.
Hypothesis Inv : forall r f, orthogonal3 r -> W f -> W (rot X rh r f).
Hypothesis SW0 : subspace X W0.
Hypothesis RF : reduced X rh K W0 (family x).
Hypothesis Sub : forall f, W f -> W0 f.
Variables (eigh : list (list R) -> list R * list (list R)) (eps : R).
Hypothesis Ev : forall b1 b2, of_width (length X) b1 -> of_width (length X) b2 -> eigen_ok (length b1 + length b2) (overlap b1 b2) (fst (eigh (overlap b1 b2))) (snd (eigh (overlap b1 b2))).
Hypothesis E1 : 0 < eps <= 1.
Hypothesis Small : 4 * INR (length X) * (eps * eps) < 1.
Let E := eplets (irr x) (arr x).
Let RE : reduced X rh K W0 E.
Proof. apply (reduced_sames _ _ K W0 (family x) _ SW0); [|exact RF]. apply plets_eplets. intros z Hz. apply coherent_len; [exact Cx|]. rewrite Lx. exact Hz. Qed.
Let irs := ir_set (irr x).
Let types t : In t E -> In (fst t) irs.
Proof. intros H. apply eplets_inv in H as (k & u & Hk & Hu & ->). apply ir_set_in. exists (nth k (irr x) dflt). split; [apply nth_In, Hk|reflexivity]. Qed.
Let keptK ir : In ir irs -> K ir.
Proof.
  intros H. apply ir_set_in in H as (m & Hm & <-). pose proof Px as Q. unfold positive in Q. rewrite Forall_forall in Q. specialize (Q m Hm). destruct (In_nth _ _ dflt Hm) as (k & Hk & Em).
  pose proof (red_keep _ _ _ _ _ RE) as RK. rewrite Forall_forall in RK. rewrite <- Em. apply (RK (epl (irr x) (arr x) k 0)). apply eplets_in; [exact Hk|rewrite Em; exact Q].
Qed.
Let LX : length X = prod s. Proof. apply all_idx_length. Qed.
Let m0 ir (u : nat) : idx -> R := fun z => member E ir u z 0%nat.
Let rows_first ir : first_rows x ir = map (row_of X) (map (m0 ir) (seq 0 (count E ir))).
Proof.
  unfold first_rows. rewrite ir_count_count. fold E. rewrite map_map. apply map_ext_in. intros u Hu. apply in_seq in Hu. unfold row_of. rewrite Lx. apply map_ext_in. intros z Hz. rewrite rot_basis_members by (try rewrite Lx; assumption).
  rewrite (nth_map_at _ _ _ (fun _ _ => 0)) by (unfold count in Hu; fold E; lia). unfold m0, member, ir_dim. cbn [seq map nth]. rewrite Nat.add_1_r. reflexivity.
Qed.
Let kp ir (p : idx -> R) : bool := existsb (fun j => existsb (fun r => nonzero (nth j r 0)) (first_rows x ir) && nonzero (nth j (row_of X p) 0)) (seq 0 (prod s)).
Let rows_perm ir : perm_opt (prod s) (first_rows x ir) (map (row_of X) Sp) = map (row_of X) (filter (kp ir) Sp).
Proof. unfold perm_opt. apply filter_true_map. intros p. reflexivity. Qed.
Lemma nonzero_false v : nonzero v = false -> v = 0. Proof. unfold nonzero. destruct (Req_EM_T v 0); [auto|discriminate]. Qed.
Let drop ir p u : kp ir p = false -> (u < count E ir)%nat -> dot X p (m0 ir u) = 0.
Proof.
  intros H Hu. unfold dot. rewrite (lsum_index X []). apply rsum_zero. intros j Hj. rewrite LX in Hj.
  assert (Q : existsb (fun r => nonzero (nth j r 0)) (first_rows x ir) && nonzero (nth j (row_of X p) 0) = false).
  { match goal with |- ?b = false => destruct b eqn:B end; [|reflexivity]. assert (T : kp ir p = true) by (apply existsb_exists; exists j; split; [apply in_seq; lia|exact B]). congruence. }
  apply andb_false_iff in Q as [Q|Q].
  - assert (Z : nonzero (nth j (row_of X (m0 ir u)) 0) = false).
    { match goal with |- ?b = false => destruct b eqn:B end; [|reflexivity]. assert (T : existsb (fun r => nonzero (nth j r 0)) (first_rows x ir) = true) by (apply existsb_exists; exists (row_of X (m0 ir u)); split; [rewrite rows_first; apply in_map, in_map, in_seq; lia|exact B]). congruence. }
    apply nonzero_false in Z. rewrite (row_nth X _ []) in Z by (rewrite LX; exact Hj). rewrite Z. ring.
  - apply nonzero_false in Q. rewrite (row_nth X _ []) in Q by (rewrite LX; exact Hj). rewrite Q. ring.
Qed.
Let bi ir := basis_intersection eigh eps (fun v => v) (prod s) (prod s) (first_rows x ir) (perm_opt (prod s) (first_rows x ir) (map (row_of X) Sp)).
Let P ir : list (list R) := match bi ir with Ok (P1, _) => P1 | Err _ => [] end.
Let each ir : In ir irs -> (exists P2, bi ir = Ok (P ir, P2)) /\ of_width (count E ir) (P ir) /\ orthonormal (count E ir) (P ir) /\
     (forall p, In p (P ir) -> W (fun z => rsum (count E ir) (fun u => nth u p 0 * member E ir u z 0%nat))) /\
     (forall c, W (fun z => rsum (count E ir) (fun u => c u * member E ir u z 0%nat)) -> spanned (count E ir) (P ir) c).
Proof.
  intros Hir. destruct (one_irrep X rh Pr Adj W Sp OS WS Inv K W0 E RE Sub [] ir (kp ir) (keptK ir Hir) (fun p u _ => drop ir p u) eigh eps Ev E1 Small) as (P1 & P2 & Q & Q').
  assert (B : bi ir = Ok (P1, P2)) by (unfold bi; rewrite rows_perm, rows_first, <- LX; exact Q). assert (EP : P ir = P1) by (unfold P; rewrite B; reflexivity). rewrite EP. split; [exists P2; exact B|exact Q'].
Qed.
Lemma assert_ok b : b = true -> PyBase.assert b = Ok tt. Proof. intros ->. reflexivity. Qed.
Theorem constrain_step : exists y, constrain eigh eps x s Sp = Ok y /\ coherent y /\ lead y = s /\ reduced X rh K W (family y).
Proof.
  set (cs := map (fun ir => Some (constrain_chunk x ir (P ir))) irs). set (ys := map (fun ir => (length (P ir), ir)) irs).
  assert (F : Forall2 (wf_opt s) ys cs).
  { unfold ys, cs. generalize irs. intros l. induction l as [|ir l IH]; [constructor|]. cbn [map]. constructor; [|exact IH]. unfold wf_opt, wf_chunk, constrain_chunk. cbn [c_lead c_mul c_dim c_val fst snd]. split; [exact Lx|]. split; [reflexivity|]. split; [reflexivity|]. intros i _. split; [apply map_length|]. apply Forall_map, Forall_forall. intros p _. rewrite map_length, seq_length. reflexivity. }
  destruct (from_chunks_ok ys cs s true F (or_introl eq_refl)) as (y & Ey & Iy & Ly & Cy & Vy & _). exists y. split; [|split; [exact Cy|split; [exact Ly|]]].
  - unfold constrain. rewrite Lx, (assert_ok (shape_eqb s s)) by (apply shape_eqb_eq; reflexivity). cbn [bind]. rewrite (mapM_Ok _ (fun ir => ((length (P ir), ir), constrain_chunk x ir (P ir)))).
    + cbn [bind]. rewrite !map_map. cbn [fst snd]. exact Ey.
    + intros ir Hir. destruct (each ir Hir) as ((P2 & B) & _). unfold bi in B. change (map (row_of X) Sp) with (map (fun p => map p (all_idx s)) Sp) in B. cbv zeta. rewrite B. reflexivity.
  - assert (SW : subspace X W).
    { constructor.
      - intros f g Q Hf. apply WS. apply WS in Hf. apply (repro_ext X Sp f g Q Hf).
      - apply WS. intros z Hz. unfold expand. apply lsum_zero. intros p _. unfold dot. rewrite (lsum_zero X); [ring|intros; ring].
      - intros f g Hf Hg. apply WS in Hf, Hg. apply WS. intros z Hz. rewrite <- (Hf z Hz), <- (Hg z Hz). unfold expand. rewrite <- lsum_plus. apply lsum_ext. intros p _. rewrite <- Rmult_plus_distr_r. f_equal. unfold dot. rewrite <- lsum_plus. apply lsum_ext. intros; ring.
      - intros c f Hf. apply WS in Hf. apply WS. intros z Hz. rewrite <- (Hf z Hz). unfold expand. rewrite <- lsum_scal. apply lsum_ext. intros p _. unfold dot. rewrite <- Rmult_assoc, <- lsum_scal. f_equal. apply lsum_ext. intros; ring. }
    assert (RC : reduced X rh K W (constrained E irs P)).
    { apply (constrain_reduced X rh Pr Adj W Sp OS WS Inv K W0 E RE Sub irs P); [apply ir_set_nodup|exact types|exact keptK|]. intros ir Hir. exact (proj2 (each ir Hir)). }
    refine (reduced_sames _ _ K W _ (family y) SW _ RC). apply sames_sym. unfold family. rewrite Iy.
    eapply sames_trans; [apply plets_ext; intros z Hz; rewrite (Vy z (in_valid _ _ Hz)); reflexivity|].
    assert (CR : forall z, chunks_row ys cs z = concat (map (fun ir => concat (c_val (constrain_chunk x ir (P ir)) z)) irs)).
    { intros z. unfold chunks_row, ys, cs. generalize irs. intros l. induction l as [|ir l IH]; [reflexivity|]. cbn [map combine flat_map concat]. f_equal. exact IH. }
    eapply sames_trans; [apply plets_ext; intros z _; apply CR|]. unfold ys.
    assert (TW : forall ir z, Forall (fun r => length r = ir_dim ir) (c_val (constrain_chunk x ir (P ir)) z)) by (intros ir z; apply Forall_map, Forall_forall; intros p _; rewrite map_length, seq_length; reflexivity).
    eapply sames_trans; [apply (plets_concat X (fun ir => (length (P ir), ir)) (fun ir z => concat (c_val (constrain_chunk x ir (P ir)) z)))|].
    + intros ir z Hir Hz. rewrite (concat_length_uniform (ir_dim ir)) by apply TW. cbn [c_val constrain_chunk]. rewrite map_length. reflexivity.
    + unfold constrained. apply sames_flat_map. intros ir Hir. unfold mflat. cbn [fst snd]. eapply sames_trans; [apply plets_copies|]. rewrite <- (map_nth_all (P ir) []) at 2. rewrite map_map. apply sames_map. intros v Hv. apply in_seq in Hv. split; [reflexivity|]. cbn [fst snd combined]. intros z c Hz Hc. rewrite Nat.add_0_l.
      rewrite (nth_concat (ir_dim ir)) by (try apply TW; try exact Hc; cbn [c_val constrain_chunk]; rewrite map_length; lia). cbn [c_val constrain_chunk]. rewrite (nth_map_at _ (P ir) _ []) by lia. change (map ?f (seq 0 (ir_dim ir))) with (tab (ir_dim ir) f). rewrite nth_tab by exact Hc. rewrite ir_count_count. fold E. apply rsum_ext. intros u Hu. f_equal. rewrite rot_basis_members by (try rewrite Lx; assumption). fold E. rewrite (nth_map_at _ _ _ (fun _ _ => 0)) by exact Hu. change (map ?f (seq 0 (ir_dim ir))) with (tab (ir_dim ir) f). rewrite nth_tab by exact Hc. reflexivity.
Qed.
End Whole.
