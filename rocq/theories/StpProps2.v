(* C61, continued: parameters, completeness, failures. *)
From Coq Require Import Reals Lra Lia List Arith Bool Sorted Permutation Ascii.
From Verif Require Import PyBase PermModel IrrepsModel IrrepsProofs IrrepsProofs2 IrrepsStr IrrepsStrProofs ArrayModel ArrayProofs ArrayOps LeadModel LeadProofs BlockProofs StackProofs ActProofs EquivProofs SumR EntryProofs TPModel TPProofs S2Proofs3 RotationModel CGModel WignerModel WignerProofs WignerProofs2 WignerProps SchurProofs RtpModel RtpSymModel RtpSpace RtpConstrain2 RtpPerm RtpMain RtpSpec RtpResult RtpProps RtpProps2 LinModProps2 StpModel StpProofs StpProofs2 StpProps.
From Verif Require GradProofs ArrayProps3.
Import ListNotations.
Open Scope R_scope.

(* ---------- names ---------- *)
(* distinct (order, irrep) pairs have distinct parameter names *)
Theorem C61_names_distinct o o' ir ir' : stp_name o ir = stp_name o' ir' -> o = o' /\ ir = ir'.
Proof.
  unfold stp_name. intros E. cbn [app] in E. injection E as E. apply digits_split in E as (E1 & _ & E2); try apply print_nat_digits; try reflexivity. apply print_nat_inj in E1. split; [exact E1|]. pose proof (parse_print_irrep ir) as H. rewrite E2, parse_print_irrep in H. congruence.
Qed.

(* ---------- sums over the entries ---------- *)
Notation d0 := (0%nat, Irrep 0 Even).
Lemma dot_entries : forall x (r r' : list R), length r = dim x -> length r' = dim x ->
  rsum (dim x) (fun C => nth C r 0 * nth C r' 0) = rsum (length x) (fun k => rsum (fst (nth k x d0)) (fun u => rsum (ir_dim (snd (nth k x d0))) (fun c => entry x r k u c * entry x r' k u c))).
Proof.
  induction x as [|m x IH]; intros r r' L L'; [reflexivity|]. rewrite dim_cons in L, L' |- *. rewrite rsum_add. cbn [length]. rewrite rsum_S_l. f_equal.
  - unfold mi_dim. rewrite rsum_mul. cbn [nth]. apply rsum_ext. intros u Hu. apply rsum_ext. intros c Hc. unfold entry. cbn [blocks nth]. assert (B : (u * ir_dim (snd m) + c < mi_dim m)%nat) by (unfold mi_dim; nia).
    rewrite <- (firstn_skipn (mi_dim m) r) at 1. rewrite <- (firstn_skipn (mi_dim m) r') at 1. rewrite !app_nth1 by (rewrite firstn_length; lia). reflexivity.
  - cbn [nth]. rewrite (rsum_ext _ _ (fun C => nth C (skipn (mi_dim m) r) 0 * nth C (skipn (mi_dim m) r') 0)).
    + rewrite IH by (rewrite skipn_length; lia). reflexivity.
    + intros C _. rewrite <- (firstn_skipn (mi_dim m) r) at 1. rewrite <- (firstn_skipn (mi_dim m) r') at 1. rewrite !app_nth2 by (rewrite firstn_length; lia). rewrite !firstn_length. f_equal; f_equal; lia.
Qed.
Lemma turned_adjoint r irs (T U : idx -> R) : orthogonal3 r -> inner_product irs (turned r irs T) U = inner_product irs T (turned (mtr r) irs U).
Proof.
  intros O. unfold inner_product. pose proof (space_adjoint (flats irs) r T U O) as A. unfold dot, space in A. rewrite tdims_flats in A. etransitivity; [|etransitivity; [exact A|]]; apply lsum_ext; intros z Hz; rewrite turned_rot by (apply all_idx_valid, Hz); unfold space; rewrite tdims_flats; reflexivity.
Qed.
(* a multiplet of tensors of type ir *)
Definition multiplet (irs : list irreps) (ir : irrep) (t : nat -> idx -> R) : Prop :=
  forall r m z, orthogonal3 r -> (m < ir_dim ir)%nat -> valid (map dim irs) z -> turned r irs (t m) z = rsum (ir_dim ir) (fun m' => Dmat r [(1%nat, ir)] m' m * t m' z).
Lemma inner_ext irs T T' U U' : (forall z, valid (map dim irs) z -> T z = T' z) -> (forall z, valid (map dim irs) z -> U z = U' z) -> inner_product irs T U = inner_product irs T' U'.
Proof. intros H H'. apply lsum_ext. intros z Hz. apply all_idx_valid in Hz. rewrite H, H' by exact Hz. reflexivity. Qed.
Lemma inner_sum_l irs n (f : nat -> R) (T : nat -> idx -> R) U : inner_product irs (fun z => rsum n (fun k => f k * T k z)) U = rsum n (fun k => f k * inner_product irs (T k) U).
Proof. unfold inner_product. rewrite (lsum_ext _ _ (fun z => rsum n (fun k => f k * (T k z * U z)))) by (intros z _; rewrite <- rsum_scal_r; apply rsum_ext; intros; ring). rewrite lsum_rsum. apply rsum_ext. intros k _. apply lsum_scal. Qed.
Lemma inner_comm irs T U : inner_product irs T U = inner_product irs U T.
Proof. apply lsum_ext. intros; ring. Qed.

Section Coefficients.
Variables (x : irreps) (n : nat) (keep : option (list irrep)) (b : iarray).
Hypothesis Rb : reduced_basis (repeat x n) keep (symmetric_tensor x n) b.
Variables (ir : irrep) (t : nat -> idx -> R).
Hypothesis Hk : passes keep ir = true.
Hypothesis Hs : forall m, (m < ir_dim ir)%nat -> symmetric_tensor x n (t m).
Hypothesis Hm : multiplet (repeat x n) ir t.
(* the tensor number (a, k, c) of the basis *)
Let Tn (a k c : nat) : idx -> R := fun z => entry (irr b) (arr b z) a k c.
Let co (a k : nat) : nat -> nat -> R := fun m c => inner_product (repeat x n) (t m) (Tn a k c).
Lemma turned_entry r a k c z : orthogonal3 r -> inside (irr b) a k c -> valid (map dim (repeat x n)) z ->
  turned r (repeat x n) (Tn a k c) z = rsum (ir_dim (snd (nth a (irr b) d0))) (fun c' => D_from_matrix r (snd (nth a (irr b) d0)) c' c * Tn a k c' z).
Proof.
  intros O Hin V. pose proof (rb_array _ _ _ _ Rb) as Cb. pose proof (rb_shape _ _ _ _ Rb) as Lb. assert (Lz : forall y, valid (map dim (repeat x n)) y -> length (arr b y) = dim (irr b)) by (intros y Hy; apply Cb; rewrite Lb; exact Hy).
  destruct (inside_bound _ _ _ _ Hin) as [B1 B2]. pose proof (offset_bound _ _ _ B1 B2) as B3. set (C := (dim (firstn a (irr b)) + (k * ir_dim (snd (nth a (irr b) d0)) + c))%nat) in *.
  transitivity (turned r (repeat x n) (tensor b C) z). { apply lsum_ext. intros y Hy. f_equal. unfold Tn, tensor. apply entry_nth; [apply Lz, all_idx_valid, Hy|exact Hin]. }
  rewrite (rb_equivariant _ _ _ _ Rb r C z O B3 V). transitivity (nth C (act (rep_of (mtr r)) (irr b) (arr b z)) 0).
  { rewrite nth_act by (try apply Lz; assumption). apply rsum_ext. intros q Hq. rewrite Dmat_tr by assumption. reflexivity. }
  unfold C. rewrite <- entry_nth by (try exact Hin; apply act_length, (as_rep_ok _)). rewrite act_entry; [|exact (as_rep_ok _)|apply Lz, V|exact Hin]. cbv zeta. destruct Hin as (mul & ia & En & Hk' & Hc). rewrite (nth_error_nth _ _ _ En). cbn [snd]. apply rsum_ext. intros j Hj. unfold rep_of. rewrite as_rep_at by assumption. rewrite C39_inverse_is_transpose by assumption. reflexivity.
Qed.
Lemma co_commutes a k : (a < length (irr b))%nat -> (k < fst (nth a (irr b) d0))%nat -> commutes ir (snd (nth a (irr b) d0)) (co a k).
Proof.
  intros Ha Hk' r m c O Hm' Hc. destruct (nth a (irr b) d0) as [mul ia] eqn:Ea. cbn [fst snd] in *. assert (Hin : forall c, (c < ir_dim ia)%nat -> inside (irr b) a k c) by (intros c' Hc'; exists mul, ia; split; [rewrite <- Ea; apply nth_error_nth', Ha|auto]).
  pose proof (turned_adjoint (mtr r) (repeat x n) (t m) (Tn a k c) (o3_tr r O)) as A.
  rewrite (inner_ext (repeat x n) (turned (mtr r) (repeat x n) (t m)) (fun z => rsum (ir_dim ir) (fun m' => D_from_matrix r ir m m' * t m' z)) (Tn a k c) (Tn a k c)) in A; [|intros z V; rewrite (Hm (mtr r) m z (o3_tr r O) Hm' V); apply rsum_ext; intros m' Hm2; rewrite D_one by assumption; rewrite C39_inverse_is_transpose by assumption; reflexivity|reflexivity].
  rewrite inner_sum_l in A. etransitivity; [exact A|].
  assert (Er : mtr (mtr r) = r) by (destruct r; reflexivity). rewrite Er.
  rewrite (inner_ext (repeat x n) (t m) (t m) _ (fun z => rsum (ir_dim ia) (fun c' => D_from_matrix r ia c' c * Tn a k c' z))); [|reflexivity|intros z V; rewrite (turned_entry r a k c z O (Hin c Hc) V), Ea; reflexivity].
  rewrite inner_comm, inner_sum_l. apply rsum_ext. intros c' _. rewrite inner_comm. unfold co. ring.
Qed.
(* the coefficients of t *)
Definition lam (a k : nat) : R := co a k 0%nat 0%nat.
Lemma multiplet_expand m z : (m < ir_dim ir)%nat -> valid (repeat (dim x) n) z ->
  t m z = rsum (length (irr b)) (fun a => if irrep_eqb ir (snd (nth a (irr b) d0)) then rsum (fst (nth a (irr b) d0)) (fun k => lam a k * entry (irr b) (arr b z) a k m) else 0).
Proof.
  intros Hmm V. assert (V' : valid (map dim (repeat x n)) z) by (rewrite map_repeat; exact V). rewrite <- (rb_complete _ _ _ _ Rb ir t Hk Hs Hm m z Hmm V'). unfold projected.
  pose proof (rb_array _ _ _ _ Rb) as Cb. pose proof (rb_shape _ _ _ _ Rb) as Lb. assert (Lz : forall y, valid (map dim (repeat x n)) y -> length (arr b y) = dim (irr b)) by (intros y Hy; apply Cb; rewrite Lb; exact Hy).
  set (f := tab (dim (irr b)) (fun C => inner_product (repeat x n) (t m) (tensor b C))). transitivity (rsum (dim (irr b)) (fun C => nth C f 0 * nth C (arr b z) 0)). { apply rsum_ext. intros C HC. unfold f. rewrite nth_tab by exact HC. reflexivity. }
  rewrite dot_entries by (try apply tab_length; apply Lz, V'). apply rsum_ext. intros a Ha. destruct (nth a (irr b) d0) as [mul ia] eqn:Ea. cbn [fst snd]. assert (Hin : forall k c, (k < mul)%nat -> (c < ir_dim ia)%nat -> inside (irr b) a k c) by (intros k c' Hk' Hc'; exists mul, ia; split; [rewrite <- Ea; apply nth_error_nth', Ha|auto]).
  assert (Ef : forall k c, (k < mul)%nat -> (c < ir_dim ia)%nat -> entry (irr b) f a k c = co a k m c).
  { intros k c Hk' Hc. rewrite entry_nth by (try apply tab_length; apply Hin; assumption). destruct (inside_bound _ _ _ _ (Hin k c Hk' Hc)) as [B1 B2]. unfold f. rewrite nth_tab by (apply offset_bound; assumption). unfold co. apply inner_ext; [reflexivity|]. intros y Vy. unfold Tn, tensor. rewrite entry_nth by (try apply Lz; try assumption; apply Hin; assumption). reflexivity. }
  pose proof (co_commutes a) as Cm. rewrite Ea in Cm. cbn [fst snd] in Cm.
  destruct (irrep_eqb ir ia) eqn:E.
  - apply irrep_eqb_eq in E. subst ia. apply rsum_ext. intros k Hk'. rewrite (rsum_ext _ _ (fun c => (if (m =? c)%nat then 1 else 0) * (lam a k * entry (irr b) (arr b z) a k c))).
    + apply (rsum_delta_r _ m (fun c => lam a k * entry (irr b) (arr b z) a k c) Hmm).
    + intros c Hc. rewrite Ef by assumption. rewrite (schur_scalar ir (co a k) (Cm k Ha Hk') m c Hmm Hc). unfold lam. ring.
  - apply rsum_zero. intros k Hk'. apply rsum_zero. intros c Hc. rewrite Ef by assumption. rewrite (schur_zero ir ia (co a k) (Cm k Ha Hk')); [ring| |exact Hmm|exact Hc]. intros ->. rewrite (proj2 (irrep_eqb_eq ia ia) eq_refl) in E. discriminate.
Qed.
End Coefficients.

(* ---------- completeness ---------- *)
Section Props.
Variables (eigh : list (list R) -> list R * list (list R)) (eps : R).
Hypothesis Ev : eigh_correct eigh.
Definition contraction (x : irreps) (o : nat) (T : idx -> R) (row : list R) : R := lsum (all_idx (repeat (dim x) o)) (fun z => T z * monomial row z).
Lemma picked_one (L : list (nat * irrep)) (W : nat -> irrep -> R) o ir : NoDup L -> In (o, ir) L ->
  lsum L (fun p => if list_eq_dec ascii_dec (stp_name o ir) (stp_name (fst p) (snd p)) then W (fst p) (snd p) else 0) = W o ir.
Proof.
  intros ND H. rewrite (GradProofs.lsum_one L _ (o, ir) ND H).
  - cbn [fst snd]. destruct (list_eq_dec ascii_dec _ _) as [_|N]; [reflexivity|contradiction N; reflexivity].
  - intros [o' ir'] _ N. cbn [fst snd]. destruct (list_eq_dec ascii_dec _ _) as [Q|_]; [|reflexivity]. apply C61_names_distinct in Q as [-> ->]. contradiction.
Qed.
(* any multiplets t o ir ch of symmetric tensors, one for every requested order, kept irrep and channel, are realised by some parameters: the component
   c of irrep ir in channel ch of the output is then the sum over the orders of t o ir ch c contracted o times with the channel ch of the input; an
   irrep that is not in the output has no such multiplets but zero *)
Theorem C61_complete flag orders keep x U (t : nat -> irrep -> nat -> nat -> idx -> R) : usable eps orders x -> bases eigh eps flag orders keep (irr x) U ->
  (forall o ir ch m, In o orders -> passes keep ir = true -> (m < ir_dim ir)%nat -> symmetric_tensor (irr x) o (t o ir ch m)) ->
  (forall o ir ch, In o orders -> passes keep ir = true -> multiplet (repeat (irr x) o) ir (t o ir ch)) ->
  exists P, forall u, coherent u -> irr u = irr x -> lead u <> [] -> exists y, stp eigh eps flag orders keep P u = Ok y /\
    (forall i k ir c, valid (lead u) i -> nth_error (irr y) k = Some (1%nat, ir) -> (c < ir_dim ir)%nat ->
      entry (irr y) (arr y i) k 0 c = lsum (nodup Nat.eq_dec orders) (fun o => contraction (irr x) o (t o ir (last i 0%nat) c) (arr u i))) /\
    (forall ir o ch c row, passes keep ir = true -> ~ In (1%nat, ir) (irr y) -> In o orders -> (c < ir_dim ir)%nat -> contraction (irr x) o (t o ir ch c) row = 0).
Proof.
  intros Us B Hs Hm. pose proof Us as [Cx No Po Lx Dp Th]. assert (RB : forall o, In o orders -> reduced_basis (repeat (irr x) o) keep (symmetric_tensor (irr x) o) (U o)) by (intros o Ho; apply (bases_reduced eigh eps Ev flag orders); try assumption; split; [apply Po, Ho|apply top_le, Ho]).
  set (W := fun o ir k ch => rsum (length (irr (U o))) (fun a => if irrep_eqb ir (snd (nth a (irr (U o)) d0)) then INR (fst (nth a (irr (U o)) d0)) * lam (irr x) o (U o) (t o ir ch) a k else 0)).
  set (L := nodup (fun p q : nat * irrep => ltac:(decide equality; [apply irrep_eq_dec|apply Nat.eq_dec])) (flat_map (fun o => map (fun m => (o, snd m)) (irr (U o))) orders)).
  set (P := (fun nm k ch => lsum L (fun p => if list_eq_dec ascii_dec nm (stp_name (fst p) (snd p)) then W (fst p) (snd p) k ch else 0)) : stp_params).
  assert (Ex : forall o ir ch c z, In o orders -> passes keep ir = true -> (c < ir_dim ir)%nat -> valid (repeat (dim (irr x)) o) z ->
    t o ir ch c z = rsum (length (irr (U o))) (fun a => if irrep_eqb ir (snd (nth a (irr (U o)) d0)) then rsum (fst (nth a (irr (U o)) d0)) (fun k => lam (irr x) o (U o) (t o ir ch) a k * entry (irr (U o)) (arr (U o) z) a k c) else 0)).
  { intros o ir ch c z Ho Hk Hc V. apply (multiplet_expand (irr x) o keep (U o) (RB o Ho) ir (t o ir ch) Hk); auto. }
  assert (Cn : forall o ir ch c row, In o orders -> passes keep ir = true -> (c < ir_dim ir)%nat ->
    contraction (irr x) o (t o ir ch c) row = rsum (length (irr (U o))) (fun a => if irrep_eqb ir (snd (nth a (irr (U o)) d0)) then rsum (fst (nth a (irr (U o)) d0)) (fun k => lam (irr x) o (U o) (t o ir ch) a k * entry (irr (U o)) (contracted (U o) row) a k c) else 0)).
  { intros o ir ch c row Ho Hk Hc. unfold contraction. pose proof (rb_shape _ _ _ _ (RB o Ho)) as Lb. rewrite map_repeat in Lb.
    rewrite (lsum_ext _ _ (fun z => rsum (length (irr (U o))) (fun a => if irrep_eqb ir (snd (nth a (irr (U o)) d0)) then rsum (fst (nth a (irr (U o)) d0)) (fun k => lam (irr x) o (U o) (t o ir ch) a k * (entry (irr (U o)) (arr (U o) z) a k c * monomial row z)) else 0))).
    2:{ intros z Hz. rewrite (Ex o ir ch c z Ho Hk Hc) by (apply all_idx_valid, Hz). rewrite <- rsum_scal_r. apply rsum_ext. intros a _. destruct (irrep_eqb _ _); [|ring]. rewrite <- rsum_scal_r. apply rsum_ext. intros; ring. }
    rewrite lsum_rsum. apply rsum_ext. intros a Ha. destruct (nth a (irr (U o)) d0) as [mul ia] eqn:Ea. cbn [fst snd]. destruct (irrep_eqb ir ia) eqn:E; [|now apply lsum_zero]. apply irrep_eqb_eq in E. subst ia. rewrite lsum_rsum. apply rsum_ext. intros k Hk'. rewrite lsum_scal. f_equal. rewrite <- Lb. symmetry. apply entry_contracted; [apply (RB o Ho)|]. exists mul, ir. split; [rewrite <- Ea; apply nth_error_nth', Ha|auto]. }
  assert (Sh : forall o ir ch c row, In o orders -> passes keep ir = true -> (c < ir_dim ir)%nat -> share o P (U o) row ch ir c = contraction (irr x) o (t o ir ch c) row).
  { intros o ir ch c row Ho Hk Hc. rewrite (Cn o ir ch c row Ho Hk Hc). unfold share. apply rsum_ext. intros a Ha. cbv zeta. destruct (nth a (irr (U o)) d0) as [mul ia] eqn:Ea. cbn [fst snd]. destruct (irrep_eqb ir ia) eqn:E; [|reflexivity]. apply irrep_eqb_eq in E. subst ia.
    assert (Hin : In (mul, ir) (irr (U o))) by (rewrite <- Ea; apply nth_In, Ha). destruct (rb_kept _ _ _ _ (RB o Ho) _ Hin) as [Mp _]. cbn [fst] in Mp.
    assert (EP : forall k, P (stp_name o ir) k ch = W o ir k ch). { intros k. unfold P. apply (picked_one L (fun o ir => W o ir k ch) o ir); [apply NoDup_nodup|]. apply nodup_In, in_flat_map. exists o. split; [exact Ho|]. apply in_map_iff. exists (mul, ir). auto. }
    assert (EW : forall k, W o ir k ch = INR mul * lam (irr x) o (U o) (t o ir ch) a k).
    { intros k. unfold W. rewrite (rsum_ext _ _ (fun a' => if (a' =? a)%nat then INR mul * lam (irr x) o (U o) (t o ir ch) a k else 0)); [exact (rsum_delta _ a (fun _ => INR mul * lam (irr x) o (U o) (t o ir ch) a k) Ha)|]. intros a' Ha'. destruct (Nat.eqb_spec a' a) as [->|N].
      - rewrite Ea. cbn [fst snd]. rewrite (proj2 (irrep_eqb_eq ir ir) eq_refl). reflexivity.
      - destruct (irrep_eqb ir (snd (nth a' (irr (U o)) d0))) eqn:E'; [|reflexivity]. exfalso. apply irrep_eqb_eq in E'. apply N. pose proof (sorted_NoDup _ (rb_sorted _ _ _ _ (RB o Ho))) as ND. rewrite (NoDup_nth _ (snd d0)) in ND. apply ND; rewrite ?map_length; try assumption. rewrite !map_nth, <- E', Ea. reflexivity. }
    unfold Rdiv. rewrite <- rsum_scal_r. apply rsum_ext. intros k Hk'. rewrite EP, EW. field. apply not_0_INR. lia. }
  exists P. intros u Cu Eu Lu. assert (Usu : usable eps orders u) by (constructor; rewrite ?Eu; assumption). destruct (C61_value eigh eps Ev flag orders keep P u U Usu) as (y & E & Cy & Ly & M1 & Sy & Ky & Vy); [rewrite Eu; exact B|]. exists y. split; [exact E|]. split.
  - intros i k ir c Vi En Hc. rewrite (Vy i k ir c Vi En Hc). assert (Hk : passes keep ir = true). { apply nth_error_In, Ky in En as (o & mul & Ho & Hin). apply (rb_kept _ _ _ _ (RB o Ho)) in Hin as [_ Hk]. exact Hk. }
    apply lsum_ext. intros o Ho. apply nodup_In in Ho. now apply Sh.
  - intros ir o ch c row Hk N Ho Hc. rewrite (Cn o ir ch c row Ho Hk Hc). apply rsum_zero. intros a Ha. destruct (irrep_eqb ir (snd (nth a (irr (U o)) d0))) eqn:E'; [|reflexivity]. exfalso. apply N, Ky. apply irrep_eqb_eq in E'. exists o, (fst (nth a (irr (U o)) d0)). split; [exact Ho|]. rewrite E', <- surjective_pairing. apply nth_In, Ha.
Qed.
End Props.
