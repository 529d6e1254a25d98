(* C58, with the options the library uses by default: the optimised implementation of symmetric products is switched on. *)
From Coq Require Import Reals Lra Lia List Arith Permutation Sorted ZArith.
From Verif Require Import PyBase PermModel PermProofs IrrepsModel IrrepsProofs IrrepsProofs2 ArrayModel ArrayProofs ArrayOps RechunkProofs LeadModel LeadProofs StackProofs ActProofs EquivProofs EntryProofs LinearProofs ScatterProps SumR S2Proofs3 TPModel TPProofs TPProofs2 RotationModel RotationProofs CGModel WignerModel WignerProofs WignerProofs2 WignerProps WignerProps2 CGComplete MathModel GSProofs BasisProofs MathProps2 BasisProofs2 SymModel SymProofs SymProofs2 SymProps SymProps2 SymProps3 SchurProofs MultProofs CouplingProofs ReducedProofs ConstrainProofs RtpModel RtpSpace RtpTools RtpArr RtpMasks RtpPerm RtpSymModel RtpWords RtpSymmetrize RtpFamily RtpTuples RtpChain RtpMain RtpTerm RtpTerm2 RtpTerm3 RtpOpt RtpSpec RtpResult RtpTotal RtpUnique RtpProps.
From Coq Require Import Ascii.
From Verif Require GradProofs.
Import ListNotations.
Open Scope R_scope.

(* ---------- specification ---------- *)
(* no multiplet of symmetric tensors transforms like an irrep that is kept, except zero *)
Definition nothing_kept (irs : list irreps) (keep : option (list irrep)) (sym : (idx -> R) -> Prop) : Prop :=
  forall ir (t : nat -> idx -> R), passes keep ir = true -> (forall m, (m < ir_dim ir)%nat -> sym (t m)) ->
    (forall r m z, orthogonal3 r -> (m < ir_dim ir)%nat -> valid (map dim irs) z -> turned r irs (t m) z = rsum (ir_dim ir) (fun m' => Dmat r [(1%nat, ir)] m' m * t m' z)) ->
    forall m z, (m < ir_dim ir)%nat -> valid (map dim irs) z -> t m z = 0.
(* a call either returns a reduced basis, or fails with a ValueError when keep_ir leaves nothing *)
Definition outcome (irs : list irreps) (keep : option (list irrep)) (sym : (idx -> R) -> Prop) (r : res iarray) : Prop :=
  (exists b, r = Ok b /\ reduced_basis irs keep sym b) \/ (keep <> None /\ r = Err ValueError /\ nothing_kept irs keep sym).
(* tensors that do not change when the indices are permuted; that change by the sign of the permutation *)
Definition symmetric_tensor (x : irreps) (n : nat) (T : idx -> R) : Prop := forall p z, is_perm p = true -> length p = n -> valid (repeat (dim x) n) z -> T (permute z p) = T z.
Definition antisymmetric_tensor (x : irreps) (n : nat) (T : idx -> R) : Prop := forall p z, is_perm p = true -> length p = n -> valid (repeat (dim x) n) z -> T (permute z p) = IZR (parity_sign p) * T z.

(* ---------- helpers ---------- *)
Lemma nothing_of_empty irs keep sym : reduced_basis irs keep sym (empty_basis irs) -> nothing_kept irs keep sym.
Proof. intros [] ir t Hk Hs He m z Hm V. rewrite <- (rb_complete ir t Hk Hs He m z Hm V). reflexivity. Qed.
Lemma outcome_iff irs keep sym sym' r : (forall T, sym T <-> sym' T) -> outcome irs keep sym r -> outcome irs keep sym' r.
Proof.
  intros H [(b & E & Rb)|(K & E & N)]; [left; exists b; split; [exact E|exact (reduced_basis_iff _ _ _ _ _ H Rb)]|right; split; [exact K|split; [exact E|]]]. intros ir t Hk Hs. apply (N ir t Hk). intros m Hm. apply H, Hs, Hm.
Qed.
Lemma nonempty_keeps irs keep sym b : reduced_basis irs keep sym b -> (0 < dim (irr b))%nat -> ~ nothing_kept irs keep sym.
Proof.
  intros Rb Dp N. pose proof (reduced_of_spec _ _ _ _ Rb) as [C U _ K Wi _]. destruct (family b) as [|t L] eqn:E.
  { unfold family in E. apply (f_equal (map fst)) in E. rewrite plets_types in E. rewrite <- dims_flat, E in Dp. cbn in Dp. lia. }
  rewrite Forall_forall in C, U, K. specialize (C t (or_introl eq_refl)). specialize (U t (or_introl eq_refl)). specialize (K t (or_introl eq_refl)). assert (Z : (0 < ir_dim (fst t))%nat) by (unfold ir_dim; lia). pose proof (U 0%nat 0%nat Z Z) as Q. cbn [Nat.eqb] in Q.
  assert (Y : dot (space (flats irs)) (comp t 0%nat) (comp t 0%nat) = 0); [|lra]. apply lsum_zero. intros z Hz. assert (V : valid (map dim irs) z) by (apply in_valid; unfold space in Hz; rewrite tdims_flats in Hz; exact Hz).
  pose proof (N (fst t) (fun k y => snd t y k) K (fun m Hm => Wi t m (or_introl eq_refl) Hm)) as G. rewrite (G) with (m := 0%nat); [ring| |exact Z|exact V].
  intros r k y O Hk Vy. assert (Hy : In y (space (flats irs))) by (unfold space; rewrite tdims_flats; apply all_idx_valid, Vy). rewrite turned_rot by exact Vy. etransitivity; [apply (C r y k O Hy Hk)|]. apply rsum_ext. intros k' Hk'. rewrite D_one by assumption. reflexivity.
Qed.

Section Props.
Variables (eigh : list (list R) -> list R * list (list R)) (eps : R).
Hypothesis Ev : eigh_correct eigh.
Notation rnd := (fun v : R => v).
Lemma total_outcome fuel flag irs g keep : 0 < eps <= 1 -> (length irs < fuel)%nat -> input_ok eps irs g -> outcome irs keep (symmetric_under g irs) (rtp eigh eps rnd (optimized eigh eps rnd) fuel flag irs g keep).
Proof.
  intros He Lf Io. pose proof (in_group _ _ _ Io) as Gg. pose proof (in_comp _ _ _ Io) as Co. destruct (rtp_total eigh eps Ev He fuel flag irs g keep Lf Io) as [(y & E & Ry)|(K & E & Re)].
  - left. exists y. split; [exact E|]. apply result_spec; assumption.
  - right. split; [exact K|]. split; [exact E|]. apply nothing_of_empty, result_spec; assumption.
Qed.
(* reduced_tensor_product_basis("ijk = -jik", i=..., ...) *)
Theorem C58_default_formula flag formula f0 rest kw ir_of keep gfuel :
  let sides := sides_of formula in
  let irs := map ir_of f0 in
  sides = (1%Z, f0) :: rest -> arrangements f0 sides -> good_kwargs kw -> indices_have f0 sides kw ir_of -> (2 * fact (length f0) < gfuel)%nat ->
  (2 <= length f0)%nat -> threshold_ok eps irs -> (forall c, In c f0 -> (0 < dim (ir_of c))%nat) ->
  exists r, basis_of_formula eigh eps rnd gfuel flag formula kw keep = Some r /\ outcome irs keep (satisfies (fun c => dim (ir_of c)) f0 sides) r.
Proof.
  intros sides irs Es Ar Kw Ih Hf L2 [He Sm] Dp. destruct (C50_germinate formula 1%Z f0 rest gfuel Es eq_refl Ar Hf) as (g & Eg & Nd & Gg & HG). fold sides in HG.
  assert (Sg : forall s f, In (s, f) sides -> is_sign s) by (intros s f; apply sides_sign). assert (Lr : length irs = length f0) by apply map_length.
  pose proof (formula_compatible f0 sides ir_of g kw Ar Sg Ih HG) as Co. fold irs in Co.
  assert (Ei : formula_irreps kw f0 g = Ok irs) by (apply (C50_formula_irreps f0 g kw irs (proj1 Ar) Gg Kw), (formula_assignment f0 sides ir_of g kw Ar Sg Ih Gg HG)).
  exists (rtp eigh eps rnd (optimized eigh eps rnd) (S (length irs)) flag irs g keep). unfold basis_of_formula, rtp_of_formula. rewrite Eg, Ei. cbn [bind]. split; [reflexivity|].
  apply (outcome_iff _ _ (symmetric_under g irs)); [exact (formula_symmetric f0 sides ir_of g kw Ar Sg Ih HG)|]. apply total_outcome; [exact He|lia|].
  constructor; [rewrite Lr; exact Gg|exact Nd|exact Co| |lia|intros Q; apply (f_equal (@length _)) in Q; cbn in Q; lia]. right. split; [|exact Sm]. apply Forall_forall. intros x Hx. apply in_map_iff in Hx as (c & <- & Hc). apply Dp, Hc.
Qed.
Lemma powers_outcome flag x n g keep : (1 <= n)%nat -> signed_group n g -> NoDup g -> (n = 1%nat -> length g = 1%nat) -> threshold_ok eps (repeat x n) -> (0 < dim x)%nat ->
  outcome (repeat x n) keep (invariant g (repeat (dim x) n)) (rtp eigh eps rnd (optimized eigh eps rnd) (S n) flag (repeat x n) g keep).
Proof.
  intros Hn Gg Nd L1 [He Sm] Dp. assert (Lr : length (repeat x n) = n) by apply repeat_length. pose proof (repeat_compatible (optimized eigh eps rnd) g x n Gg) as Co.
  apply (outcome_iff _ _ (symmetric_under g (repeat x n))); [intros T; unfold symmetric_under; rewrite map_repeat; reflexivity|]. apply total_outcome; [exact He|lia|].
  constructor; [rewrite Lr; exact Gg|exact Nd|exact Co| |lia|intros Q; apply (f_equal (@length _)) in Q; cbn in Q; lia]. right. split; [|exact Sm]. apply Forall_forall. intros y Hy. apply repeat_spec in Hy. subst y. exact Dp.
Qed.
(* the sign-free group of all permutations of n indices *)
Lemma symmetric_group n : exists g, symmetric_perm_repr n = Ok g /\ signed_group n g /\ NoDup g /\ (n = 1%nat -> length g = 1%nat) /\ all_perms n g.
Proof.
  destruct (sym_group n) as (g & Eg & Hg). exists g. split; [exact Eg|]. unfold symmetric_perm_repr in Eg. destruct (group_ok n) as (l & El & Nl & Ll & Hl). rewrite El in Eg. cbn [bind] in Eg. assert (E : g = map (fun p => (1%Z, p)) l) by congruence.
  assert (A : all_perms n g).
  { intros s p. rewrite E, in_map_iff. split; [intros (q & Q & Hq); injection Q as <- <-; apply Hl in Hq as (P & L); auto|intros (-> & P & L); exists p; split; [reflexivity|apply Hl; auto]]. }
  split; [|split; [rewrite E; apply FinFun.Injective_map_NoDup; [intros p q Q; congruence|exact Nl]|split; [intros ->; rewrite E, map_length; exact Ll|exact A]]].
  destruct (C50_symmetric n (repeat 0%nat n) (repeat_length _ _)) as (g' & base & Eg' & Gg & _).
  { intros d Hd. destruct n; [destruct Hd|]. apply repeat_spec in Hd. subst d. reflexivity. }
  unfold symmetric_perm_repr in Eg'. rewrite El in Eg'. cbn [bind] in Eg'. assert (g = g') as -> by congruence. exact Gg.
Qed.
Theorem C58_default_symmetric flag x n keep : (1 <= n)%nat -> threshold_ok eps (repeat x n) -> (0 < dim x)%nat ->
  outcome (repeat x n) keep (symmetric_tensor x n) (symmetric_basis eigh eps rnd flag x n keep).
Proof.
  intros Hn Th Dp. destruct (symmetric_group n) as (g & Eg & Gg & Nd & L1 & A). unfold symmetric_basis, rtp_symmetric. rewrite Eg. cbn [bind]. apply (outcome_iff _ _ (invariant g (repeat (dim x) n))); [|apply powers_outcome; assumption].
  intros T. unfold invariant, symmetric_tensor. split.
  - intros H p z P L V. rewrite (H 1%Z p z); [ring| |exact V]. apply A. auto.
  - intros H s p z Hp V. apply A in Hp as (-> & P & L). rewrite (H p z P L V). ring.
Qed.
Theorem C58_default_antisymmetric flag x n keep : (1 <= n)%nat -> threshold_ok eps (repeat x n) -> (0 < dim x)%nat ->
  outcome (repeat x n) keep (antisymmetric_tensor x n) (antisymmetric_basis eigh eps rnd flag x n keep).
Proof.
  intros Hn Th Dp. destruct (C50_antisymmetric n (repeat (dim x) n) (repeat_length _ _)) as (g & base & Eg & Gg & _).
  { intros d Hd. apply repeat_spec in Hd. subst d. destruct n; [lia|reflexivity]. }
  pose proof Eg as Eg'. unfold antisymmetric_perm_repr in Eg'. destruct (group_ok n) as (l & El & Nl & Ll & Hl). rewrite El in Eg'. cbn [bind] in Eg'. rewrite (mapM_Ok _ (fun p => (parity_sign p, p))) in Eg' by (intros p Hp; apply Hl in Hp as (P & _); rewrite (parity_sign_spec p P); reflexivity). assert (E : g = map (fun p => (parity_sign p, p)) l) by congruence.
  unfold antisymmetric_basis, rtp_antisymmetric. rewrite Eg. cbn [bind]. apply (outcome_iff _ _ (invariant g (repeat (dim x) n))); [|apply powers_outcome; try assumption].
  - intros T. unfold invariant, antisymmetric_tensor. split.
    + intros H p z P L V. apply (H (parity_sign p) p z); [|exact V]. rewrite E. apply in_map_iff. exists p. split; [reflexivity|apply Hl; auto].
    + intros H s p z Hp V. rewrite E in Hp. apply in_map_iff in Hp as (q & Q & Hq). injection Q as <- <-. apply Hl in Hq as (P & L). exact (H q z P L V).
  - rewrite E. apply FinFun.Injective_map_NoDup; [intros p q Q; congruence|exact Nl].
  - intros ->. rewrite E, map_length. exact Ll.
Qed.
(* when no filter is given the call returns a basis *)
Theorem C58_all_kept flag x n : (1 <= n)%nat -> threshold_ok eps (repeat x n) -> (0 < dim x)%nat ->
  exists b, symmetric_basis eigh eps rnd flag x n None = Ok b /\ reduced_basis (repeat x n) None (symmetric_tensor x n) b.
Proof. intros Hn Th Dp. destruct (C58_default_symmetric flag x n None Hn Th Dp) as [H|(K & _)]; [exact H|congruence]. Qed.
(* the optimised implementation fails exactly when nothing is kept *)
Theorem C58_fails_iff x n keep : (2 <= n)%nat -> (2 <= num_irreps x)%nat -> threshold_ok eps (repeat x n) ->
  (symmetric_basis eigh eps rnd true x n keep = Err ValueError <-> nothing_kept (repeat x n) keep (symmetric_tensor x n)).
Proof.
  intros Hn Hx Th. assert (Dp : (0 < dim x)%nat).
  { clear -Hx. induction x as [|[m ir] x IH]; [cbn in Hx; lia|]. rewrite dim_cons. rewrite num_irreps_cons in Hx. unfold mi_dim, ir_dim. cbn [fst snd]. destruct m; [|lia]. destruct x; [cbn in Hx; lia|]. specialize (IH ltac:(lia)). lia. }
  destruct (C58_default_symmetric true x n keep ltac:(lia) Th Dp) as [(b & E & Rb)|(K & E & N)]; [|tauto]. split; [congruence|]. intros N. exfalso. revert N. apply (nonempty_keeps _ _ _ b Rb).
  destruct Th as [He Sm]. destruct (symmetric_group n) as (g & Eg & Gg & Nd & L1 & A). destruct (sym_group n) as (g' & Eg' & _). assert (g' = g) as -> by congruence.
  unfold symmetric_basis, rtp_symmetric in E. rewrite Eg in E. cbn [bind rtp] in E. rewrite repeat_length, Eg in E. cbn [bind andb] in E.
  rewrite (proj2 (Nat.ltb_lt 1 n)) in E by lia. rewrite (nth_repeat_at x [] 0 n) in E by lia. rewrite (proj2 (Nat.ltb_lt 1 (num_irreps x))) in E by lia.
  assert (Ss : same_set g g = true) by (unfold same_set; rewrite Bool.andb_diag; apply forallb_forall; intros a Ha; apply smem_In, Ha). rewrite Ss in E. cbn [andb] in E.
  destruct (optimized_ok eigh eps x n keep g Ev He Sm ltac:(lia) ltac:(lia) A) as [(y & Ey & Ry & Dy)|(Ee & _)]; [|rewrite Ee in E; discriminate]. rewrite Ey in E. cbn [bind] in E.
  destruct (rounded (repeat x n) g keep y Ry) as (y' & Ey' & Ry'). rewrite Ey' in E. injection E as <-.
  assert (C' : compatible g (repeat x n)) by (apply (repeat_compatible (optimized eigh eps rnd)), Gg). assert (Q : irr y = irr y').
  { apply (irreps_unique (repeat x n) keep (symmetric_under g (repeat x n))); apply result_spec; try assumption; rewrite repeat_length; exact Gg. }
  rewrite <- Q. exact Dy.
Qed.
End Props.

(* ---------- the irreps of the output ---------- *)
(* irreps_out is determined by what is asked for: any two reduced bases have the same irreps *)
Theorem C58_irreps_determined irs keep sym b b' : reduced_basis irs keep sym b -> reduced_basis irs keep sym b' -> irr b = irr b'.
Proof. apply irreps_unique. Qed.
(* the flag changes neither irreps_out nor the space that the basis spans *)
Theorem C58_flag_irrelevant eigh eps x n b b' : eigh_correct eigh -> (1 <= n)%nat -> threshold_ok eps (repeat x n) -> (0 < dim x)%nat ->
  symmetric_basis eigh eps (fun v => v) true x n None = Ok b -> symmetric_basis eigh eps (fun v => v) false x n None = Ok b' ->
  irr b = irr b' /\ forall T z, symmetric_tensor x n T -> valid (repeat (dim x) n) z -> projected (repeat x n) b T z = projected (repeat x n) b' T z.
Proof.
  intros Ev Hn Th Dp E E'. destruct (C58_all_kept eigh eps Ev true x n Hn Th Dp) as (c & Ec & Rc). destruct (C58_all_kept eigh eps Ev false x n Hn Th Dp) as (c' & Ec' & Rc'). assert (c = b) as -> by congruence. assert (c' = b') as -> by congruence. split; [exact (irreps_unique _ _ _ _ _ Rc Rc')|].
  intros T z HT V. rewrite <- map_repeat in V. rewrite (rb_all _ _ _ _ Rc eq_refl T z HT V), (rb_all _ _ _ _ Rc' eq_refl T z HT V). reflexivity.
Qed.

(* ---------- where it goes wrong ---------- *)
Definition inversion : mat := mat_scale (-1) RotationModel.mone.
Lemma inversion_orthogonal : orthogonal3 inversion.
Proof. split; apply mat_eq; cbn; ring. Qed.
Definition all_even (x : irreps) : Prop := Forall (fun m => ir_p (snd m) = Even) x.
Lemma bd_even l p q : Forall (fun c => ir_p c = Even) l -> (p < dims l)%nat -> (q < dims l)%nat -> bd inversion l p q = if (p =? q)%nat then 1 else 0.
Proof.
  intros F. revert p q. induction F as [|ir l Ei F IH]; intros p q Hp Hq; [cbn in Hp; lia|]. rewrite dims_cons in Hp, Hq. destruct (Nat.lt_ge_cases p (ir_dim ir)) as [H|H], (Nat.lt_ge_cases q (ir_dim ir)) as [H'|H'].
  - rewrite bd_low by assumption. unfold inversion. rewrite C39_inversion by assumption. rewrite Ei. unfold done. destruct (p =? q)%nat; ring.
  - replace q with (ir_dim ir + (q - ir_dim ir))%nat by lia. rewrite bd_low_high by exact H. destruct (Nat.eqb_spec p (ir_dim ir + (q - ir_dim ir))); [lia|reflexivity].
  - replace p with (ir_dim ir + (p - ir_dim ir))%nat by lia. rewrite bd_high_low by exact H'. destruct (Nat.eqb_spec (ir_dim ir + (p - ir_dim ir)) q); [lia|reflexivity].
  - replace p with (ir_dim ir + (p - ir_dim ir))%nat by lia. replace q with (ir_dim ir + (q - ir_dim ir))%nat by lia. rewrite bd_high, IH by lia. destruct (Nat.eqb_spec (p - ir_dim ir) (q - ir_dim ir)), (Nat.eqb_spec (ir_dim ir + (p - ir_dim ir)) (ir_dim ir + (q - ir_dim ir))); reflexivity || lia.
Qed.
Lemma Dtensor_even irs z z' : Forall all_even irs -> valid (map dim irs) z -> valid (map dim irs) z' -> Dtensor inversion irs z z' = if list_eq_dec Nat.eq_dec z z' then 1 else 0.
Proof.
  intros F. revert z z'. induction F as [|x irs Ex F IH]; intros z z' H H'; inversion H; inversion H'; subst; [reflexivity|]. cbn [Dtensor]. rewrite IH by assumption. rewrite Dmat_bd by assumption. rewrite bd_even; [|apply Forall_forall; intros c Hc; rewrite flat_mflat in Hc; apply in_flat_map in Hc as (m & Hm & Hc); apply repeat_spec in Hc; subst c; unfold all_even in Ex; rewrite Forall_forall in Ex; apply Ex, Hm|rewrite dims_flat; assumption|rewrite dims_flat; assumption].
  match goal with |- (if (?a =? ?b)%nat then 1 else 0) * (if list_eq_dec Nat.eq_dec ?u ?v then 1 else 0) = _ => destruct (Nat.eqb_spec a b), (list_eq_dec Nat.eq_dec u v), (list_eq_dec Nat.eq_dec (a :: u) (b :: v)) end; try ring; congruence.
Qed.
Lemma even_odd irs keep sym : Forall all_even irs -> Forall (fun c => ir_p c = Odd) keep -> nothing_kept irs (Some keep) sym.
Proof.
  intros F Ko ir t Hk _ He m z Hm V. assert (Po : ir_p ir = Odd).
  { rewrite Forall_forall in Ko. apply Ko. cbn [passes] in Hk. apply existsb_exists in Hk as (c & Hc & E). apply irrep_eqb_eq in E. subst c. exact Hc. }
  specialize (He inversion m z inversion_orthogonal Hm V). unfold turned in He. set (X := all_idx (map dim irs)) in *. assert (Hz : In z X) by (apply all_idx_valid, V).
  rewrite (GradProofs.lsum_one X _ z) in He; [|apply all_idx_nodup|exact Hz|intros y Hy Ny; rewrite Dtensor_even by (try exact F; try exact V; apply all_idx_valid, Hy); destruct (list_eq_dec Nat.eq_dec z y); [congruence|ring]].
  rewrite Dtensor_even in He by assumption. destruct (list_eq_dec Nat.eq_dec z z); [|contradiction]. rewrite (rsum_ext _ _ (fun m' => (if (m' =? m)%nat then 1 else 0) * (- t m' z))) in He.
  - rewrite (rsum_delta_l _ m (fun m' => - t m' z)) in He by exact Hm. lra.
  - intros m' Hm'. rewrite D_one by assumption. unfold inversion. rewrite C39_inversion by assumption. rewrite Po. unfold done. destruct (m' =? m)%nat; ring.
Qed.
(* keep_ir with odd irreps only, for a product of even irreps: an empty basis without the optimised implementation, a ValueError with it *)
Theorem C58_keep_nothing_refuted eigh eps x n keep : eigh_correct eigh -> (2 <= n)%nat -> (2 <= num_irreps x)%nat -> threshold_ok eps (repeat x n) -> all_even x -> Forall (fun c => ir_p c = Odd) keep ->
  symmetric_basis eigh eps (fun v => v) true x n (Some keep) = Err ValueError /\
  exists b, symmetric_basis eigh eps (fun v => v) false x n (Some keep) = Ok b /\ irr b = [] /\ lead b = repeat (dim x) n.
Proof.
  intros Ev Hn Hx Th Ex Ko. assert (N : nothing_kept (repeat x n) (Some keep) (symmetric_tensor x n)) by (apply even_odd; [apply Forall_forall; intros y Hy; apply repeat_spec in Hy; subst y; exact Ex|exact Ko]). split; [apply C58_fails_iff; assumption|].
  assert (Dp : (0 < dim x)%nat).
  { clear -Hx. induction x as [|[m ir] x IH]; [cbn in Hx; lia|]. rewrite dim_cons. rewrite num_irreps_cons in Hx. unfold mi_dim, ir_dim. cbn [fst snd]. destruct m; [|lia]. destruct x; [cbn in Hx; lia|]. specialize (IH ltac:(lia)). lia. }
  destruct (C58_symmetric eigh eps (optimized eigh eps (fun v => v)) Ev false x n (Some keep) ltac:(lia) Th Dp (or_introl eq_refl)) as (b & Eb & Rb). exists b. split; [exact Eb|]. split; [|rewrite (rb_shape _ _ _ _ Rb); apply map_repeat].
  destruct (irr b) as [|m l] eqn:E; [reflexivity|]. exfalso. apply (nonempty_keeps _ _ _ b Rb); [|exact N]. rewrite E. destruct (rb_kept _ _ _ _ Rb m) as [P _]; [rewrite E; left; reflexivity|]. destruct m as [m ir]. rewrite dim_cons. unfold mi_dim, ir_dim. cbn [fst snd] in *. lia.
Qed.

(* ---------- the hypotheses can be met ---------- *)
(* symmetric 0e+1o times 0e+1o, by the optimised implementation; 2x0e with only 0o kept *)
Example C58_default_nonvacuous : exists eigh, eigh_correct eigh /\
  (exists b, symmetric_basis eigh (1 / 100) (fun v => v) true [(1%nat, Irrep 0 Even); (1%nat, Irrep 1 Odd)] 2 None = Ok b /\
     reduced_basis [[(1%nat, Irrep 0 Even); (1%nat, Irrep 1 Odd)]; [(1%nat, Irrep 0 Even); (1%nat, Irrep 1 Odd)]] None (symmetric_tensor [(1%nat, Irrep 0 Even); (1%nat, Irrep 1 Odd)] 2) b) /\
  symmetric_basis eigh (1 / 100) (fun v => v) true [(2%nat, Irrep 0 Even)] 2 (Some [Irrep 0 Odd]) = Err ValueError.
Proof.
  destruct C58_eigh_exists as [eigh Ev]. exists eigh. split; [exact Ev|]. split.
  - apply (C58_all_kept eigh (1 / 100) Ev true); [lia| |cbn; lia]. split; [lra|]. change (prod (map dim (repeat [(1%nat, Irrep 0 Even); (1%nat, Irrep 1 Odd)] 2))) with 16%nat. cbn [INR]. lra.
  - apply (C58_keep_nothing_refuted eigh (1 / 100) _ 2 [Irrep 0 Odd] Ev); [lia|cbn; lia| |repeat constructor|repeat constructor]. split; [lra|]. change (prod (map dim (repeat [(2%nat, Irrep 0 Even)] 2))) with 4%nat. cbn [INR]. lra.
Qed.
