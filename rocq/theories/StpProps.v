(* C61: SymmetricTensorProduct.  Vocabulary: reduced_basis, tensor, symmetric_tensor and nothing_kept are those of C58 (RtpSpec.v, RtpProps2.v);
   transform, agree, coherent and entry are those of C20-C24. *)
From Coq Require Import Reals Lra Lia List Arith Bool Sorted Permutation Ascii.
From Verif Require Import PyBase PermModel IrrepsModel IrrepsProofs IrrepsProofs2 IrrepsStr IrrepsStrProofs ArrayModel ArrayProofs ArrayOps LeadModel LeadProofs StackProofs ActProofs EquivProofs SumR EntryProofs TPModel TPProofs S2Proofs3 RotationModel CGModel WignerModel WignerProofs WignerProofs2 WignerProps SchurProofs RtpModel RtpSymModel RtpSpace RtpConstrain2 RtpPerm RtpMain RtpSpec RtpResult RtpProps RtpProps2 LinModProps2 StpModel StpProofs StpProofs2.
From Verif Require GradProofs ArrayProps3.
Import ListNotations.
Open Scope R_scope.

(* ---------- specification ---------- *)
(* e3nn.haiku.SymmetricTensorProduct(orders, keep_irrep_out=keep)(x) with the parameters P; flag: the configuration of the optimised bases *)
Definition stp (eigh : list (list R) -> list R * list (list R)) (eps : R) (flag : bool) (orders : list nat) (keep : option (list irrep)) (P : stp_params) (x : iarray) : res iarray :=
  stp_call (symmetric_basis eigh eps (fun v => v) flag) orders keep P x.
(* a call the documentation allows: some positive orders, a channel axis, at least one component, and a threshold that is small enough (C58) *)
Record usable (eps : R) (orders : list nat) (x : iarray) : Prop := {
  us_array : coherent x;
  us_some : orders <> [];
  us_positive : forall o, In o orders -> (0 < o)%nat;
  us_channel : lead x <> [];
  us_dim : (0 < dim (irr x))%nat;
  us_eps : forall o, (1 <= o <= top orders)%nat -> threshold_ok eps (repeat (irr x) o) }.
(* the bases of all the orders up to the largest one *)
Definition bases (eigh : list (list R) -> list R * list (list R)) (eps : R) (flag : bool) (orders : list nat) (keep : option (list irrep)) (x : irreps) (U : nat -> iarray) : Prop :=
  forall o, (1 <= o <= top orders)%nat -> symmetric_basis eigh eps (fun v => v) flag x o keep = Ok (U o).

(* ---------- the matrix of irreps is an action ---------- *)
Lemma nth_acts r l row p : length row = dims l -> (p < dims l)%nat -> nth p (acts (rep_of r) l row) 0 = rsum (dims l) (fun q => bd r l p q * nth q row 0).
Proof.
  revert row p. induction l as [|ir l IH]; intros row p L Hp; [cbn in Hp; lia|]. rewrite dims_cons in L, Hp. cbn [acts]. destruct (as_rep_ok (D_from_matrix r) ir) as [L1 F1]. fold (rep_of r) in L1, F1.
  rewrite (matvec_tab _ _ (ir_dim ir) L1 F1) by (rewrite firstn_length; lia). destruct (Nat.lt_ge_cases p (ir_dim ir)) as [H|H].
  - rewrite app_nth1 by (rewrite tab_length; exact H). rewrite nth_tab by exact H. rewrite (bd_split r ir l p (fun q => nth q row 0)) by exact H. apply rsum_ext. intros q Hq. unfold rep_of. rewrite as_rep_at by assumption. f_equal. rewrite <- (firstn_skipn (ir_dim ir) row) at 2. rewrite app_nth1 by (rewrite firstn_length; lia). reflexivity.
  - assert (exists p', p = ir_dim ir + p')%nat as [p' ->] by (exists (p - ir_dim ir)%nat; lia). rewrite app_nth2 by (rewrite tab_length; exact H). rewrite tab_length. replace (ir_dim ir + p' - ir_dim ir)%nat with p' by lia. rewrite (bd_split_high r ir l p' (fun q => nth q row 0)). rewrite IH by (try rewrite skipn_length; lia). apply rsum_ext. intros q Hq. f_equal.
    rewrite <- (firstn_skipn (ir_dim ir) row) at 2. rewrite app_nth2 by (rewrite firstn_length; lia). rewrite firstn_length. f_equal. lia.
Qed.
Lemma nth_act r x row p : length row = dim x -> (p < dim x)%nat -> nth p (act (rep_of r) x row) 0 = rsum (dim x) (fun q => Dmat r x p q * nth q row 0).
Proof. intros L Hp. unfold act. rewrite nth_acts by (rewrite dims_flat; assumption). rewrite dims_flat. apply rsum_ext. intros q Hq. rewrite Dmat_bd by assumption. reflexivity. Qed.
Lemma Dmat_tr r x p q : orthogonal3 r -> (p < dim x)%nat -> (q < dim x)%nat -> Dmat (mtr r) x p q = Dmat r x q p.
Proof. intros O Hp Hq. rewrite !Dmat_bd by assumption. apply bd_tr; rewrite ?dims_flat; assumption. Qed.
Lemma Dtensor_tr r irs z z' : orthogonal3 r -> valid (map dim irs) z -> valid (map dim irs) z' -> Dtensor (mtr r) irs z z' = Dtensor r irs z' z.
Proof. intros O V V'. rewrite !Dtensor_rho by assumption. apply rho_tr; [exact O| |]; unfold space; rewrite tdims_flats; apply all_idx_valid; assumption. Qed.
Lemma monomial_act r x row n z : length row = dim x -> valid (repeat (dim x) n) z -> monomial (act (rep_of r) x row) z = lsum (all_idx (repeat (dim x) n)) (fun z' => Dtensor r (repeat x n) z z' * monomial row z').
Proof.
  intros L. revert z. induction n as [|n IH]; intros z V; inversion V as [|p d z1 s Hp Hz]; subst.
  - cbn. unfold monomial. cbn. ring.
  - cbn [repeat]. rewrite lsum_all_idx. unfold monomial. cbn [map fold_right]. fold (monomial (act (rep_of r) x row) z1). rewrite (IH z1 Hz), nth_act, lsum_seq by assumption. rewrite <- rsum_scal_r. apply rsum_ext. intros q Hq. rewrite <- lsum_scal. apply lsum_ext. intros z' _. cbn [Dtensor map fold_right]. fold (monomial row z'). ring.
Qed.
Lemma contracted_act r x n keep b row : orthogonal3 r -> length row = dim x -> reduced_basis (repeat x n) keep (symmetric_tensor x n) b ->
  contracted b (act (rep_of r) x row) = act (rep_of r) (irr b) (contracted b row).
Proof.
  intros O L Rb. pose proof (rb_shape _ _ _ _ Rb) as Lb. rewrite map_repeat in Lb. apply (nth_ext _ _ 0 0); [rewrite contracted_length, act_length; [reflexivity|exact (as_rep_ok _)]|].
  intros c Hc. rewrite contracted_length in Hc. rewrite nth_act by (try rewrite contracted_length; auto). unfold contracted at 1. rewrite nth_tab by exact Hc. rewrite Lb.
  rewrite (lsum_ext _ _ (fun z => lsum (all_idx (repeat (dim x) n)) (fun z' => Dtensor r (repeat x n) z z' * nth c (arr b z) 0 * monomial row z'))).
  2:{ intros z Hz. rewrite (monomial_act r x row n z L) by (apply all_idx_valid, Hz). rewrite <- lsum_scal. apply lsum_ext. intros; ring. }
  rewrite lsum_swap. rewrite (lsum_ext _ _ (fun z' => rsum (dim (irr b)) (fun c' => Dmat r (irr b) c c' * (tensor b c' z' * monomial row z')))).
  2:{ intros z' Hz'. assert (V' : valid (repeat (dim x) n) z') by (apply all_idx_valid, Hz'). rewrite lsum_scal_r. transitivity (turned (mtr r) (repeat x n) (tensor b c) z' * monomial row z').
    - f_equal. unfold turned. rewrite map_repeat. apply lsum_ext. intros z Hz. rewrite Dtensor_tr; [reflexivity|exact O|rewrite map_repeat; exact V'|rewrite map_repeat; apply all_idx_valid, Hz].
    - rewrite (rb_equivariant _ _ _ _ Rb (mtr r) c z' (o3_tr r O) Hc) by (rewrite map_repeat; exact V'). rewrite <- rsum_scal_r. apply rsum_ext. intros c' Hc'. rewrite Dmat_tr by assumption. ring. }
  rewrite lsum_rsum. apply rsum_ext. intros c' Hc'. rewrite lsum_scal. f_equal. unfold contracted. rewrite nth_tab by exact Hc'. rewrite Lb. reflexivity.
Qed.
Lemma share_act r o P x n keep b row ch ir c : orthogonal3 r -> length row = dim x -> reduced_basis (repeat x n) keep (symmetric_tensor x n) b -> (c < ir_dim ir)%nat ->
  share o P b (act (rep_of r) x row) ch ir c = rsum (ir_dim ir) (fun j => mat_at (rep_of r ir) c j * share o P b row ch ir j).
Proof.
  intros O L Rb Hc. unfold share. rewrite (rsum_ext (ir_dim ir) _ (fun j => rsum (length (irr b)) (fun a => let mul := fst (nth a (irr b) (0%nat, Irrep 0 Even)) in if irrep_eqb ir (snd (nth a (irr b) (0%nat, Irrep 0 Even))) then mat_at (rep_of r ir) c j * (rsum mul (fun k => P (stp_name o ir) k ch * entry (irr b) (contracted b row) a k j) / INR mul) else 0))).
  2:{ intros j _. rewrite <- rsum_scal. apply rsum_ext. intros a _. cbv zeta. destruct (irrep_eqb _ _); ring. }
  rewrite rsum_swap. apply rsum_ext. intros a Ha. cbv zeta. destruct (nth a (irr b) (0%nat, Irrep 0 Even)) as [mul ia] eqn:Ea. cbn [fst snd]. destruct (irrep_eqb ir ia) eqn:E; [|symmetry; apply rsum_zero; reflexivity]. apply irrep_eqb_eq in E. subst ia.
  assert (En : nth_error (irr b) a = Some (mul, ir)) by (rewrite <- Ea; apply nth_error_nth', Ha).
  rewrite (contracted_act r x n keep b row O L Rb). rewrite (rsum_ext (ir_dim ir) _ (fun j => rsum mul (fun k => mat_at (rep_of r ir) c j * (P (stp_name o ir) k ch * entry (irr b) (contracted b row) a k j)) / INR mul)) by (intros j _; rewrite rsum_scal; unfold Rdiv; ring).
  unfold Rdiv. rewrite rsum_scal_r. f_equal. rewrite rsum_swap. apply rsum_ext. intros k Hk. rewrite act_entry; [|exact (as_rep_ok _)|apply contracted_length|exists mul, ir; auto]. cbv zeta. rewrite Ea. cbn [snd]. rewrite <- rsum_scal. apply rsum_ext. intros j _. ring.
Qed.

Lemma sorted_unique_set : forall l l' : list irrep, StronglySorted (fun a b => ir_ltb a b = true) l -> StronglySorted (fun a b => ir_ltb a b = true) l' -> (forall ir, In ir l <-> In ir l') -> l = l'.
Proof.
  induction l as [|a l IH]; intros [|b l'] H H' E; [reflexivity|destruct (proj2 (E b) (or_introl eq_refl))|destruct (proj1 (E a) (or_introl eq_refl))|]. inversion H as [|? ? H1 H2]; inversion H' as [|? ? H1' H2']; subst. rewrite Forall_forall in H2, H2'.
  assert (a = b) as ->. { destruct (proj1 (E a) (or_introl eq_refl)) as [Q|Q]; [auto|]. destruct (proj2 (E b) (or_introl eq_refl)) as [Q'|Q']; [auto|]. pose proof (ir_ltb_trans _ _ _ (H2 _ Q') (H2' _ Q)) as C. rewrite ir_ltb_irrefl in C. discriminate. }
  f_equal. apply IH; [exact H1|exact H1'|]. intros ir. split; intros Q.
  - destruct (proj1 (E ir) (or_intror Q)) as [<-|Q']; [specialize (H2 _ Q); rewrite ir_ltb_irrefl in H2; discriminate|exact Q'].
  - destruct (proj2 (E ir) (or_intror Q)) as [<-|Q']; [specialize (H2' _ Q); rewrite ir_ltb_irrefl in H2'; discriminate|exact Q'].
Qed.
Section Props.
Variables (eigh : list (list R) -> list R * list (list R)) (eps : R).
Hypothesis Ev : eigh_correct eigh.

Lemma bases_reduced flag orders keep x U : (0 < dim x)%nat -> (forall o, (1 <= o <= top orders)%nat -> threshold_ok eps (repeat x o)) -> bases eigh eps flag orders keep x U ->
  forall o, (1 <= o <= top orders)%nat -> reduced_basis (repeat x o) keep (symmetric_tensor x o) (U o).
Proof. intros Dp Th B o Ho. destruct (C58_default_symmetric eigh eps Ev flag x o keep ltac:(lia) (Th o Ho) Dp) as [(b & E & Rb)|(_ & E & _)]; rewrite (B o Ho) in E; [injection E as <-; exact Rb|discriminate]. Qed.
Lemma reduced_of_order o x keep sym b : reduced_basis (repeat x o) keep sym b -> of_order o x b.
Proof. intros Rb. split; [apply Rb|]. split; [rewrite (rb_shape _ _ _ _ Rb); apply map_repeat|apply Rb]. Qed.
Lemma stp_row flag orders keep P x U : usable eps orders x -> bases eigh eps flag orders keep (irr x) U ->
  exists l, StronglySorted (fun a b => ir_ltb a b = true) l /\ (forall ir, In ir l <-> exists o, In o orders /\ In ir (map snd (irr (U o)))) /\
    yields (stp eigh eps flag orders keep P x) (out_irreps l) (lead x) (fun i => rowof (out_irreps l) (fun k _ c => lsum (nodup Nat.eq_dec orders) (fun o => share o P (U o) (arr x i) (last i 0%nat) (nth k l (Irrep 0 Even)) c))).
Proof.
  intros [Cx No Po Lx Dp Th] B. apply stp_ok; try assumption. intros o Ho. split; [apply B, Ho|]. eapply reduced_of_order, (bases_reduced flag orders keep); eassumption.
Qed.
(* the output: one copy of every irrep that occurs in the basis of a requested order, sorted, with the shape of the input; the component c of irrep ir
   in channel ch is the sum over the requested orders o of 1/mul sum_k w{o}_{ir}[k, ch] (T_{k,c} contracted o times with the row of x in that channel),
   where T_{k,c} are the mul multiplets of type ir of the basis of order o *)
Theorem C61_value flag orders keep P x U : usable eps orders x -> bases eigh eps flag orders keep (irr x) U ->
  exists y, stp eigh eps flag orders keep P x = Ok y /\ coherent y /\ lead y = lead x /\ Forall (fun m => fst m = 1%nat) (irr y) /\ StronglySorted (fun a b => ir_ltb (snd a) (snd b) = true) (irr y) /\
    (forall ir, In (1%nat, ir) (irr y) <-> exists o mul, In o orders /\ In (mul, ir) (irr (U o))) /\
    forall i k ir c, valid (lead x) i -> nth_error (irr y) k = Some (1%nat, ir) -> (c < ir_dim ir)%nat ->
      entry (irr y) (arr y i) k 0 c = lsum (nodup Nat.eq_dec orders) (fun o => share o P (U o) (arr x i) (last i 0%nat) ir c).
Proof.
  intros Us B. destruct (stp_row flag orders keep P x U Us B) as (l & Sl & Kl & y & E & Ey & Ly & Cy & Ay). exists y. split; [exact E|]. split; [exact Cy|]. split; [exact Ly|]. rewrite Ey. split; [|split; [|split]].
  - apply Forall_map, Forall_forall. reflexivity.
  - unfold out_irreps. clear -Sl. induction Sl as [|a l Sl IH F]; [constructor|]. cbn [map]. constructor; [exact IH|]. apply Forall_map. exact F.
  - intros ir. transitivity (In ir l).
    + unfold out_irreps. rewrite in_map_iff. split; [intros (q & Q & Hq); injection Q as ->; exact Hq|intros H; exists ir; auto].
    + rewrite Kl. split; [intros (o & Ho & H); apply in_map_iff in H as ([mul ir'] & Q & H); cbn in Q; subst ir'; exists o, mul; auto|intros (o & mul & Ho & H); exists o; split; [exact Ho|apply in_map_iff; exists (mul, ir); auto]].
  - intros i k ir c Vi En Hc. rewrite Ay by exact Vi. rewrite entry_rowof by (exists 1%nat, ir; auto). unfold out_irreps in En. rewrite nth_error_map in En. destruct (nth_error l k) eqn:Ek; [|discriminate]. cbn in En. injection En as ->. rewrite (nth_error_nth _ _ _ Ek). reflexivity.
Qed.
(* turning the input turns the output *)
Theorem C61_equivariant r flag orders keep P x U : orthogonal3 r -> usable eps orders x -> bases eigh eps flag orders keep (irr x) U ->
  agree (let! y := stp eigh eps flag orders keep P x in transform (rep_of r) y) (let! u := transform (rep_of r) x in stp eigh eps flag orders keep P u).
Proof.
  intros O Us B. pose proof (as_rep_ok (D_from_matrix r) : rep_ok (rep_of r)) as HD. pose proof Us as [Cx No Po Lx Dp Th]. destruct (stp_row flag orders keep P x U Us B) as (l & Sl & Kl & Y).
  exists (out_irreps l), (lead x), (fun i => rowof (out_irreps l) (fun k _ c => lsum (nodup Nat.eq_dec orders) (fun o => share o P (U o) (act (rep_of r) (irr x) (arr x i)) (last i 0%nat) (nth k l (Irrep 0 Even)) c))). split.
  - eapply yields_bind; [exact Y|]. intros y _ Ey Ly Cy Ay. rewrite <- Ey, <- Ly. eapply yields_ext; [|apply (transform_act (rep_of r) y Cy HD)]. intros i Hi. cbv beta. rewrite Ly in Hi. rewrite Ay, Ey by exact Hi. rewrite act_rowof by exact HD. apply rowof_ext. intros k u c (m & ir & En & Hu & Hc). cbv zeta. rewrite (nth_error_nth _ _ _ En). cbn [snd].
    unfold out_irreps in En. rewrite nth_error_map in En. destruct (nth_error l k) eqn:Ek; [|discriminate]. cbn in En. injection En as <- ->. rewrite (nth_error_nth _ _ _ Ek).
    rewrite (rsum_ext _ _ (fun j => lsum (nodup Nat.eq_dec orders) (fun o => mat_at (rep_of r ir) c j * share o P (U o) (arr x i) (last i 0%nat) ir j))) by (intros; rewrite lsum_scal; reflexivity). rewrite <- lsum_rsum. apply lsum_ext. intros o Ho. apply nodup_In in Ho. symmetry. apply (share_act r o P (irr x) o keep); try assumption; [apply Cx, Hi|].
    apply (bases_reduced flag orders); try assumption. split; [apply Po, Ho|apply top_le, Ho].
  - eapply yields_bind; [apply (transform_act (rep_of r) x Cx HD)|]. intros u _ Eu Lu Cu Au. assert (Usu : usable eps orders u) by (constructor; rewrite ?Eu, ?Lu; assumption). destruct (stp_row flag orders keep P u U Usu) as (l' & Sl' & Kl' & Y'); [rewrite Eu; exact B|].
    assert (l' = l) as ->. { apply sorted_unique_set; [exact Sl'|exact Sl|]. intros ir. rewrite Kl', Kl. reflexivity. }
    rewrite Lu in Y'. eapply yields_ext; [|exact Y']. intros i Hi. cbv beta. rewrite Au by exact Hi. reflexivity.
Qed.
End Props.
