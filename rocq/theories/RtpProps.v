(* C58: reduced_tensor_product_basis returns an orthonormal, equivariant and complete basis of the tensors that have the requested symmetry. *)
From Coq Require Import Reals Lra Lia List Arith Permutation Sorted ZArith Ascii.
From Verif Require Import PyBase PermModel PermProofs PermProps IrrepsModel IrrepsStr IrrepsProofs ArrayModel ArrayProofs LeadModel LeadProofs StackProofs ScatterProps SumR TPModel TPProofs MathModel GSProofs BasisProofs SymModel SymProofs SymProofs2 SymProps SymProps2 SymProps3 ReducedProofs RtpModel RtpSpace RtpTools RtpArr RtpMasks RtpPerm RtpMain RtpSpec RtpResult.
From Verif Require GradProofs SpectralProofs.
Import ListNotations.
Open Scope R_scope.

(* ---------- specification ---------- *)
(* what is assumed of numpy.linalg.eigh on the matrices it is given here (C54): orthonormal eigenvectors *)
Definition eigh_correct (eigh : list (list R) -> list R * list (list R)) : Prop :=
  forall d b1 b2, of_width d b1 -> of_width d b2 -> eigen_ok (length b1 + length b2) (overlap b1 b2) (fst (eigh (overlap b1 b2))) (snd (eigh (overlap b1 b2))).
(* the threshold epsilon (1e-5 by default) is small enough for tensors with N components *)
Definition threshold_ok (eps : R) (irs : list irreps) : Prop := 0 < eps <= 1 /\ 4 * INR (prod (map dim irs)) * (eps * eps) < 1.
(* ir_of gives the irreps of every index of the formula: those given as keyword arguments, and an index has the irreps of the indices it is exchanged with *)
Inductive exchanged (f0 : chars) (sides : list (Z * chars)) : ascii -> ascii -> Prop :=
| ex_refl c : exchanged f0 sides c c
| ex_side s f k : In (s, f) sides -> (k < length f0)%nat -> exchanged f0 sides (nth k f0 "a"%char) (nth k f "a"%char)
| ex_sym c d : exchanged f0 sides c d -> exchanged f0 sides d c
| ex_trans c d e : exchanged f0 sides c d -> exchanged f0 sides d e -> exchanged f0 sides c e.
Record indices_have (f0 : chars) (sides : list (Z * chars)) (kw : list (chars * irreps)) (ir_of : ascii -> irreps) : Prop := {
  ih_given : forall c v, given kw c v -> In c f0 /\ ir_of c = v;
  ih_same : forall s f, In (s, f) sides -> map ir_of f = map ir_of f0;
  ih_known : forall c, In c f0 -> exists c', exchanged f0 sides c c' /\ given kw c' (ir_of c) }.

(* ---------- helpers ---------- *)
Lemma reduced_basis_iff irs keep sym sym' b : (forall T, sym T <-> sym' T) -> reduced_basis irs keep sym b -> reduced_basis irs keep sym' b.
Proof.
  intros H []. constructor; auto.
  - intros c Hc. apply H. auto.
  - intros ir t Hk Hs. apply rb_complete; [exact Hk|]. intros m Hm. apply H, Hs, Hm.
  - intros K T z HT. apply rb_all; [exact K|]. apply H, HT.
Qed.
Lemma one_group n : signed_group n [(1%Z, identity n)].
Proof.
  split; [intros s p [E|[]]; injection E as <- <-; split; [left; reflexivity|split; [apply identity_perm|apply seq_length]]|]. split; [left; reflexivity|]. split.
  - intros s p q [E|[]] Q. injection E as <- <-. rewrite inverse_Ok in Q by apply identity_perm. left. f_equal. injection Q as <-. symmetry. apply nth_ext0; [rewrite inv_nat_length; reflexivity|]. rewrite inv_nat_length. intros k Hk. unfold identity in *. rewrite seq_length in Hk. pose proof (inv_nat_r (seq 0 n) k (identity_perm n) ltac:(rewrite seq_length; lia)) as Q. rewrite seq_nth in Q; [cbn in Q; rewrite seq_nth by lia; exact Q|]. pose proof (perm_nth_lt _ k (inv_nat_perm (seq 0 n) (identity_perm n))) as B. rewrite inv_nat_length, seq_length in B. apply B. lia.
  - intros s p t q r [E|[]] [E'|[]] Q. injection E as <- <-. injection E' as <- <-. rewrite compose_Ok in Q by (try apply identity_perm; reflexivity). injection Q as <-. left. f_equal. symmetry. apply nth_ext0; [rewrite comp_nat_length; reflexivity|]. rewrite comp_nat_length. intros k Hk. rewrite comp_nat_nth by exact Hk. unfold identity in *. rewrite seq_length in Hk. rewrite !seq_nth; try lia; rewrite seq_nth; lia.
Qed.
Lemma identity_compatible irs : compatible [(1%Z, identity (length irs))] irs.
Proof.
  intros s p [E|[]]. injection E as <- <-. unfold identity. clear. apply (nth_ext _ _ [] []); [rewrite map_length, seq_length; reflexivity|]. rewrite map_length, seq_length. intros k Hk. rewrite (nth_map_at (fun i => nth i irs []) (seq 0 (length irs)) k 0%nat) by (rewrite seq_length; exact Hk). rewrite seq_nth by exact Hk. reflexivity.
Qed.
Lemma trivial_invariant n dims T : length dims = n -> invariant [(1%Z, identity n)] dims T.
Proof. intros L s p x [E|[]] V. injection E as <- <-. rewrite permute_id by (apply valid_length in V; congruence). ring. Qed.

(* ---------- what a formula means ---------- *)
Section Formula.
Variables (f0 : chars) (sides : list (Z * chars)) (ir_of : ascii -> irreps) (g : list signed) (kw : list (chars * irreps)).
Hypothesis Ar : arrangements f0 sides.
Hypothesis Sg : forall s f, In (s, f) sides -> is_sign s.
Hypothesis Ih : indices_have f0 sides kw ir_of.
Hypothesis Gg : signed_group (length f0) g.
Hypothesis HG : forall a, In a g <-> group_of f0 sides a.
Let irs := map ir_of f0.
Lemma formula_nth k : (k < length f0)%nat -> nth k irs [] = ir_of (nth k f0 "a"%char).
Proof. intros H. unfold irs. apply nth_mapc, H. Qed.
Lemma formula_fixed a : group_of f0 sides a -> is_perm (snd a) = true /\ length (snd a) = length f0 /\ forall k, (k < length f0)%nat -> nth (nth k (snd a) 0%nat) irs [] = nth k irs [].
Proof.
  intros Ha. induction Ha as [[s p] Ha|s p q Hp IHp Hq|s p t q r Hp IHp Hq IHq Hr]; cbn [fst snd] in *.
  - destruct (gens_signed f0 sides Ar Sg s p Ha) as (_ & P & L). split; [exact P|]. split; [exact L|]. intros k Hk. apply in_map_iff in Ha as ([t f] & E & Hf). pose proof (proj2 Ar t f Hf) as Pf.
    assert (Ep : p = snd (gen f0 (t, f))) by (rewrite E; reflexivity). subst p. unfold irs at 1. rewrite <- (ih_same _ _ _ _ Ih t f Hf). rewrite gen_nth by exact Hk. cbn [snd]. rewrite formula_nth by exact Hk.
    destruct (cindex_ok (nth k f0 "a"%char) f "a"%char) as (_ & Lc & Q); [apply (Permutation_in _ (Permutation_sym Pf)), nth_In, Hk|]. rewrite (nth_mapc ir_of f _ "a"%char) by exact Lc. rewrite Q. reflexivity.
  - destruct IHp as (P & L & F). rewrite inverse_Ok in Hq by exact P. injection Hq as <-. split; [apply inv_nat_perm, P|]. split; [rewrite inv_nat_length; exact L|]. intros k Hk. rewrite <- (F (nth k (inv_nat p) 0%nat)); [rewrite inv_nat_r by (try assumption; lia); reflexivity|].
    pose proof (perm_nth_lt _ k (inv_nat_perm p P)) as B. rewrite inv_nat_length, L in B. apply B, Hk.
  - destruct IHp as (P & L & F), IHq as (P' & L' & F'). rewrite compose_Ok in Hr by congruence. injection Hr as <-. split; [apply comp_nat_perm; congruence|]. split; [rewrite comp_nat_length; exact L|]. intros k Hk. rewrite comp_nat_nth by lia. rewrite F by (rewrite <- L'; apply perm_nth_lt; [exact P'|lia]). apply F', Hk.
Qed.
Lemma formula_compatible : compatible g irs.
Proof.
  intros s p H. apply HG in H. destruct (formula_fixed _ H) as (P & L & F). cbn [snd] in *. apply (nth_ext _ _ [] []); [unfold irs; rewrite !map_length; exact L|]. rewrite map_length. intros k Hk. rewrite (nth_map_at (fun i => nth i irs []) p k 0%nat) by exact Hk. apply F. lia.
Qed.
Lemma formula_linked c c' : exchanged f0 sides c c' -> linked f0 g c c'.
Proof.
  induction 1 as [c|s f k Hf Hk|c d H IH|c d e H IH H' IH'].
  - left. reflexivity.
  - apply (linked_sym f0 g Gg). right. apply (in_pairs f0 g Gg). pose proof (proj2 Ar s f Hf) as Pf. assert (Lf : length f = length f0) by (apply Permutation_length, Pf).
    assert (Hc : In (nth k f "a"%char) f0) by (apply (Permutation_in _ Pf), nth_In; lia). destruct (In_nth _ _ "a"%char Hc) as (j & Hj & Ej). exists s, (snd (gen f0 (s, f))), j. split; [apply HG, sgen_in, in_map_iff; exists (s, f); split; [reflexivity|exact Hf]|]. split; [exact Hj|]. split; [symmetry; exact Ej|]. rewrite gen_nth by exact Hj. cbn [snd]. f_equal.
    destruct (cindex_ok (nth j f0 "a"%char) f "a"%char) as (_ & Lc & Q); [rewrite Ej; apply nth_In; lia|]. assert (Nf : NoDup f) by exact (Permutation_NoDup (Permutation_sym Pf) (proj1 Ar)). apply (proj1 (NoDup_nth f "a"%char) Nf); [lia|exact Lc|]. rewrite Q. symmetry. exact Ej.
  - apply (linked_sym f0 g Gg), IH.
  - exact (linked_trans f0 g (proj1 Ar) Gg _ _ _ IH IH').
Qed.
Lemma formula_assignment : assignment f0 g kw irs.
Proof.
  split; [apply map_length|]. split; [|split].
  - intros c v H. destruct (ih_given _ _ _ _ Ih c v H) as [Hc Ev']. destruct (In_nth _ _ "a"%char Hc) as (k & Hk & E). exists k. split; [exact Hk|]. split; [exact E|]. rewrite formula_nth by exact Hk. rewrite E. exact Ev'.
  - intros s p k H Hk. apply HG in H. exact (proj2 (proj2 (formula_fixed _ H)) k Hk).
  - intros k Hk. destruct (ih_known _ _ _ _ Ih (nth k f0 "a"%char) (nth_In _ _ Hk)) as (c' & X & Gv). rewrite formula_nth by exact Hk. apply formula_linked in X as [<-|X].
    + destruct (self_pair f0 g Gg k Hk) as (s & p & H & E). exists s, p. split; [exact H|]. rewrite E. exact Gv.
    + apply (in_pairs f0 g Gg) in X as (s & p & j & H & Hj & E & ->). exists s, p. apply (letter_inj f0 (proj1 Ar)) in E; [|exact Hk|exact Hj]. subst j. split; [exact H|exact Gv].
Qed.
Lemma formula_symmetric T : symmetric_under g irs T <-> satisfies (fun c => dim (ir_of c)) f0 sides T.
Proof.
  assert (Ed : map dim irs = map (fun c => dim (ir_of c)) f0) by (unfold irs; apply map_map). assert (D : same_dims (fun c => dim (ir_of c)) f0 sides).
  { intros s f Hf. rewrite <- !(map_map ir_of dim). rewrite (ih_same _ _ _ _ Ih s f Hf). reflexivity. }
  unfold symmetric_under, invariant. rewrite Ed. symmetry. apply (C50_equations_generate (fun c => dim (ir_of c)) f0 sides g T Ar Sg D HG).
Qed.
End Formula.

Section Props.
Variables (eigh : list (list R) -> list R * list (list R)) (eps : R) (optimized : irreps -> nat -> option (list irrep) -> res iarray).
Hypothesis Ev : eigh_correct eigh.
Notation rnd := (fun v : R => v).

(* reduced_tensor_product_basis([irreps_1, ..., irreps_n]): no symmetry; the whole tensor product is decomposed *)
Theorem C58_list flag irs keep : 0 < eps <= 1 -> irs <> [] -> exists b, rtp_of_list eigh eps rnd optimized flag irs keep = Ok b /\ reduced_basis irs keep (fun _ => True) b.
Proof.
  intros He N. set (g := [(1%Z, identity (length irs))]). assert (Gg : signed_group (length irs) g) by apply one_group. assert (Co : compatible g irs) by apply identity_compatible.
  destruct (rtp_ok eigh eps Ev He optimized (S (length irs)) flag irs g keep) as (b & Eb & Rb); [lia|right; right; reflexivity| |].
  { constructor; [exact Gg|constructor; [intros []|constructor]|exact Co|left; reflexivity|reflexivity|exact N]. }
  exists b. split; [exact Eb|]. apply (reduced_basis_iff _ _ (symmetric_under g irs)); [|exact (result_spec irs g keep b Gg Co Rb)]. intros T. split; [auto|]. intros _. apply trivial_invariant, map_length.
Qed.


(* reduced_tensor_product_basis("ijk = -jik", i=..., ...) *)
Theorem C58_formula flag formula f0 rest kw ir_of keep gfuel :
  let sides := sides_of formula in
  let irs := map ir_of f0 in
  sides = (1%Z, f0) :: rest -> arrangements f0 sides -> good_kwargs kw -> indices_have f0 sides kw ir_of -> (2 * fact (length f0) < gfuel)%nat ->
  (2 <= length f0)%nat -> threshold_ok eps irs -> (forall c, In c f0 -> (0 < dim (ir_of c))%nat) ->
  (flag = false \/ forall c, In c f0 -> (num_irreps (ir_of c) <= 1)%nat) ->
  exists b, rtp_of_formula eigh eps rnd optimized gfuel flag formula kw keep = Some (Ok b) /\ reduced_basis irs keep (satisfies (fun c => dim (ir_of c)) f0 sides) b.
Proof.
  intros sides irs Es Ar Kw Ih Hf L2 [He Sm] Dp No. destruct (C50_germinate formula 1%Z f0 rest gfuel Es eq_refl Ar Hf) as (g & Eg & Nd & Gg & HG). fold sides in HG.
  assert (Sg : forall s f, In (s, f) sides -> is_sign s) by (intros s f; apply sides_sign). assert (Lr : length irs = length f0) by apply map_length.
  pose proof (formula_compatible f0 sides ir_of g kw Ar Sg Ih HG) as Co. fold irs in Co.
  assert (Ei : formula_irreps kw f0 g = Ok irs) by (apply (C50_formula_irreps f0 g kw irs (proj1 Ar) Gg Kw), (formula_assignment f0 sides ir_of g kw Ar Sg Ih Gg HG)).
  destruct (rtp_ok eigh eps Ev He optimized (S (length irs)) flag irs g keep) as (b & Eb & Rb); [lia| | |].
  - destruct No as [No|No]; [left; exact No|right; left]. apply Forall_forall. intros x Hx. apply in_map_iff in Hx as (c & <- & Hc). apply No, Hc.
  - constructor; [rewrite Lr; exact Gg|exact Nd|exact Co| |lia|intros Q; apply (f_equal (@length _)) in Q; cbn in Q; lia]. right. split; [|exact Sm]. apply Forall_forall. intros x Hx. apply in_map_iff in Hx as (c & <- & Hc). apply Dp, Hc.
  - exists b. unfold rtp_of_formula. rewrite Eg, Ei. cbn [bind]. rewrite Eb. split; [reflexivity|]. apply (reduced_basis_iff _ _ (symmetric_under g irs)); [exact (formula_symmetric f0 sides ir_of g kw Ar Sg Ih HG)|]. apply result_spec; [rewrite Lr; exact Gg|exact Co|exact Rb].
Qed.

(* ---------- symmetric and antisymmetric tensors ---------- *)
Lemma nth_repeat_at {A} (a d : A) j n : (j < n)%nat -> nth j (repeat a n) d = a.
Proof. intros H. rewrite (nth_indep _ d a) by (rewrite repeat_length; exact H). apply nth_repeat. Qed.
Lemma repeat_compatible g x n : signed_group n g -> compatible g (repeat x n).
Proof.
  intros (P & _) s p H. destruct (P s p H) as (_ & Pp & L). apply (nth_ext _ _ [] []); [rewrite map_length, repeat_length; exact L|]. rewrite map_length. intros k Hk. rewrite (nth_map_at (fun i => nth i (repeat x n) []) p k 0%nat) by exact Hk. rewrite !nth_repeat_at; [reflexivity|lia|]. rewrite <- L. apply perm_nth_lt; assumption.
Qed.
Lemma powers flag x n g keep : (1 <= n)%nat -> signed_group n g -> NoDup g -> (n = 1%nat -> length g = 1%nat) -> threshold_ok eps (repeat x n) -> (0 < dim x)%nat -> (flag = false \/ (num_irreps x <= 1)%nat) ->
  exists b, rtp eigh eps rnd optimized (S n) flag (repeat x n) g keep = Ok b /\ reduced_basis (repeat x n) keep (invariant g (repeat (dim x) n)) b.
Proof.
  intros Hn Gg Nd L1 [He Sm] Dp No. assert (Lr : length (repeat x n) = n) by apply repeat_length. pose proof (repeat_compatible g x n Gg) as Co.
  destruct (rtp_ok eigh eps Ev He optimized (S n) flag (repeat x n) g keep) as (b & Eb & Rb); [lia| | |].
  - destruct No as [No|No]; [left; exact No|right; left]. apply Forall_forall. intros y Hy. apply repeat_spec in Hy. subst y. exact No.
  - constructor; [rewrite Lr; exact Gg|exact Nd|exact Co| |lia|intros Q; apply (f_equal (@length _)) in Q; cbn in Q; lia]. right. split; [|exact Sm]. apply Forall_forall. intros y Hy. apply repeat_spec in Hy. subst y. exact Dp.
  - exists b. split; [exact Eb|]. apply (reduced_basis_iff _ _ (symmetric_under g (repeat x n))); [intros T; unfold symmetric_under; rewrite map_repeat; reflexivity|]. apply result_spec; [rewrite Lr; exact Gg|exact Co|exact Rb].
Qed.
Theorem C58_symmetric flag x n keep : (1 <= n)%nat -> threshold_ok eps (repeat x n) -> (0 < dim x)%nat -> (flag = false \/ (num_irreps x <= 1)%nat) ->
  exists b, rtp_symmetric eigh eps rnd optimized flag x n keep = Ok b /\
  reduced_basis (repeat x n) keep (fun T => forall p z, is_perm p = true -> length p = n -> valid (repeat (dim x) n) z -> T (permute z p) = T z) b.
Proof.
  intros Hn Th Dp No. destruct (C50_symmetric n (repeat (dim x) n) (repeat_length _ _)) as (g & base & Eg & Gg & _).
  { intros d Hd. apply repeat_spec in Hd. subst d. destruct n; [lia|reflexivity]. }
  pose proof Eg as Eg'. unfold symmetric_perm_repr in Eg'. destruct (group_ok n) as (l & El & Nl & Ll & Hl). rewrite El in Eg'. cbn [bind] in Eg'. assert (E : g = map (fun p => (1%Z, p)) l) by congruence.
  destruct (powers flag x n g keep Hn Gg) as (b & Eb & Rb); [|intros ->; rewrite E, map_length; exact Ll|exact Th|exact Dp|exact No|].
  { rewrite E. apply FinFun.Injective_map_NoDup; [intros p q Q; congruence|exact Nl]. }
  exists b. unfold rtp_symmetric. rewrite Eg. cbn [bind]. split; [exact Eb|]. revert Rb. apply reduced_basis_iff. intros T. unfold invariant. split.
  - intros H p z P L V. rewrite (H 1%Z p z); [ring| |exact V]. rewrite E. apply in_map_iff. exists p. split; [reflexivity|apply Hl; auto].
  - intros H s p z Hp V. rewrite E in Hp. apply in_map_iff in Hp as (q & Q & Hq). injection Q as <- <-. apply Hl in Hq as (P & L). rewrite (H q z P L V). ring.
Qed.
Theorem C58_antisymmetric flag x n keep : (1 <= n)%nat -> threshold_ok eps (repeat x n) -> (0 < dim x)%nat -> (flag = false \/ (num_irreps x <= 1)%nat) ->
  exists b, rtp_antisymmetric eigh eps rnd optimized flag x n keep = Ok b /\
  reduced_basis (repeat x n) keep (fun T => forall p z, is_perm p = true -> length p = n -> valid (repeat (dim x) n) z -> T (permute z p) = IZR (parity_sign p) * T z) b.
Proof.
  intros Hn Th Dp No. destruct (C50_antisymmetric n (repeat (dim x) n) (repeat_length _ _)) as (g & base & Eg & Gg & _).
  { intros d Hd. apply repeat_spec in Hd. subst d. destruct n; [lia|reflexivity]. }
  pose proof Eg as Eg'. unfold antisymmetric_perm_repr in Eg'. destruct (group_ok n) as (l & El & Nl & Ll & Hl). rewrite El in Eg'. cbn [bind] in Eg'. rewrite (mapM_Ok _ (fun p => (parity_sign p, p))) in Eg' by (intros p Hp; apply Hl in Hp as (P & _); rewrite (parity_sign_spec p P); reflexivity). assert (E : g = map (fun p => (parity_sign p, p)) l) by congruence.
  destruct (powers flag x n g keep Hn Gg) as (b & Eb & Rb); [|intros ->; rewrite E, map_length; exact Ll|exact Th|exact Dp|exact No|].
  { rewrite E. apply FinFun.Injective_map_NoDup; [intros p q Q; congruence|exact Nl]. }
  exists b. unfold rtp_antisymmetric. rewrite Eg. cbn [bind]. split; [exact Eb|]. revert Rb. apply reduced_basis_iff. intros T. unfold invariant. split.
  - intros H p z P L V. apply (H (parity_sign p) p z); [|exact V]. rewrite E. apply in_map_iff. exists p. split; [reflexivity|apply Hl; auto].
  - intros H s p z Hp V. rewrite E in Hp. apply in_map_iff in Hp as (q & Q & Hq). injection Q as <- <-. apply Hl in Hq as (P & L). exact (H q z P L V).
Qed.
End Props.

(* without symmetry and filter, the irreps of the output have the dimension of the product *)
Theorem C58_dimension irs b : reduced_basis irs None (fun _ => True) b -> dim (irr b) = prod (map dim irs).
Proof.
  intros []. apply INR_eq. set (X := all_idx (map dim irs)). transitivity (rsum (dim (irr b)) (fun c => inner_product irs (tensor b c) (tensor b c))).
  - rewrite (rsum_ext _ _ (fun _ => 1)) by (intros c Hc; rewrite rb_orthonormal by exact Hc; rewrite Nat.eqb_refl; reflexivity). rewrite <- lsum_seq, lsum_const, seq_length. ring.
  - unfold inner_product. fold X. rewrite <- (lsum_rsum X (dim (irr b)) (fun z c => tensor b c z * tensor b c z)). rewrite (lsum_ext X _ (fun _ => 1)).
    + rewrite lsum_const. unfold X. rewrite all_idx_length. ring.
    + intros z Hz. assert (V : valid (map dim irs) z) by (apply all_idx_valid, Hz). pose proof (rb_all eq_refl (fun z' => if list_eq_dec Nat.eq_dec z z' then 1 else 0) z Logic.I V) as P. unfold projected, inner_product in P. fold X in P. cbv beta in P. transitivity (if list_eq_dec Nat.eq_dec z z then 1 else 0); [|destruct (list_eq_dec Nat.eq_dec z z); [reflexivity|contradiction]]. rewrite <- P. apply rsum_ext. intros c Hc. f_equal. symmetry. rewrite (GradProofs.lsum_one X _ z); [destruct (list_eq_dec Nat.eq_dec z z); [ring|contradiction]|apply all_idx_nodup|exact Hz|]. intros y _ Ny. destruct (list_eq_dec Nat.eq_dec z y); [congruence|ring].
Qed.

(* ---------- where it goes wrong ---------- *)
Section Wrong.
Variables (eigh : list (list R) -> list R * list (list R)) (eps : R) (optimized : irreps -> nat -> option (list irrep) -> res iarray).
Notation rnd := (fun v : R => v).
(* with a single index the symmetry is not looked at *)
Theorem C58_one_index_ignores_formula fuel flag x g g' keep : rtp eigh eps rnd optimized (S fuel) flag [x] g keep = rtp eigh eps rnd optimized (S fuel) flag [x] g' keep.
Proof.
  cbn [rtp length]. change (1 <? 1)%nat with false. destruct (if flag then symmetric_perm_repr 1 else Ok []) as [sym|e]; [|reflexivity]. cbn [bind]. rewrite !Bool.andb_false_r. cbn [andb]. unfold rtp_general. cbn [length seq mapM]. destruct (let! b := eye_basis [x] 0 in Ok ([0%nat], b)) as [a|e]; [|reflexivity]. destruct a. reflexivity.
Qed.
(* reduced_tensor_product_basis("i=-i", i=irreps) returns the identity, although only the zero tensor satisfies T_i = -T_i *)
Theorem C58_one_index_refuted flag x gfuel : eigh_correct eigh -> 0 < eps <= 1 -> (0 < dim x)%nat -> (2 < gfuel)%nat ->
  let formula := ["i"; "="; "-"; "i"]%char in
  exists b, rtp_of_formula eigh eps rnd optimized gfuel flag formula [(["i"%char], x)] None = Some (Ok b) /\ dim (irr b) = dim x /\
  forall c, (c < dim (irr b))%nat -> ~ satisfies (fun _ => dim x) ["i"%char] (sides_of formula) (tensor b c).
Proof.
  intros Ev He Dx Hf formula. assert (Es : sides_of formula = [(1%Z, ["i"%char]); ((-1)%Z, ["i"%char])]) by reflexivity.
  assert (Ar : arrangements ["i"%char] (sides_of formula)) by (rewrite Es; split; [repeat constructor; intros []|]; intros s f [E|[E|[]]]; injection E as <- <-; apply Permutation_refl).
  destruct (C50_germinate formula 1%Z ["i"%char] _ gfuel Es eq_refl Ar) as (g & Eg & Nd & Gg & HG); [cbn; lia|].
  assert (Ei : formula_irreps [(["i"%char], x)] ["i"%char] g = Ok [x]).
  { apply (C50_formula_irreps _ _ _ _ (proj1 Ar) Gg); [split; [repeat constructor; intros []|intros k v [E|[]]; injection E as <- <-; eexists; reflexivity]|]. change ([x]) with (map (fun _ : ascii => x) ["i"%char]). apply (formula_assignment ["i"%char] (sides_of formula) (fun _ => x) g _ Ar); [intros s f; apply sides_sign| |exact Gg|exact HG].
    constructor.
    - intros c v [E|[]]. injection E as <- <-. split; [left|]; reflexivity.
    - intros s f H. rewrite Es in H. destruct H as [E|[E|[]]]; injection E as <- <-; reflexivity.
    - intros c [<-|[]]. exists "i"%char. split; [constructor|left; reflexivity]. }
  destruct (C58_list eigh eps optimized Ev flag [x] None He ltac:(discriminate)) as (b & Eb & Rb). exists b. unfold rtp_of_formula. rewrite Eg, Ei. cbn [bind]. rewrite (C58_one_index_ignores_formula _ flag x g [(1%Z, identity 1)] None). split; [f_equal; exact Eb|]. destruct Rb.
  assert (Nz : forall c, (c < dim (irr b))%nat -> ~ satisfies (fun _ => dim x) ["i"%char] (sides_of formula) (tensor b c)).
  { intros c Hc Q. pose proof (rb_orthonormal c c Hc Hc) as N1. rewrite Nat.eqb_refl in N1. unfold inner_product in N1. rewrite lsum_zero in N1; [lra|]. intros z Hz. apply all_idx_valid in Hz. cbn [map] in Hz. destruct z as [|k [|? ?]]; try (apply valid_length in Hz; discriminate). apply valid_iff in Hz as [_ Hz]. specialize (Hz 0%nat ltac:(cbn; lia)). cbn [nth] in Hz.
    pose proof (Q (-1)%Z ["i"%char] (fun _ => k) ltac:(rewrite Es; right; left; reflexivity) (fun _ _ => Hz)) as H. cbn [map] in H. assert (tensor b c [k] = 0) as -> by lra. ring. }
  split; [|exact Nz]. pose proof (C58_dimension [x] b) as G. cbn [map prod] in G. rewrite G; [cbn; lia|]. constructor; assumption.
Qed.
(* the empty product is refused *)
Theorem C58_no_index flag keep : rtp_of_list eigh eps rnd optimized flag [] keep = Err RuntimeError.
Proof. destruct flag; reflexivity. Qed.
(* an index of dimension 0 next to a symmetry makes the call fail; without a symmetry (C58_list) it does not *)
Theorem C58_zero_dimension_refuted flag x keep : dim x = 0%nat -> rtp_symmetric eigh eps rnd optimized flag x 2 keep = Err ValueError /\ rtp_antisymmetric eigh eps rnd optimized flag x 2 keep = Err ValueError.
Proof.
  intros D0. assert (Nx : num_irreps x = 0%nat).
  { clear -D0. induction x as [|[m ir] x IH]; [reflexivity|]. rewrite dim_cons in D0. rewrite num_irreps_cons, IH by lia. unfold mi_dim, ir_dim in D0. cbn [fst snd] in D0. nia. }
  set (irs := [x; x]). destruct (eye_good irs 0 ltac:(cbn; lia)) as (a & Ea & Ga). destruct (eye_good irs 1 ltac:(cbn; lia)) as (b & Eb & Gb).
  assert (DM : disjoint_masks (maskof 2 [0%nat]) (maskof 2 [1%nat]) (repeat true 2)) by (repeat constructor).
  destruct (product_step keep _ _ (repeat true 2) (flats irs) _ _ a _ _ b DM eq_refl Ga Gb (fun _ _ _ _ => Logic.I) (fun _ _ _ _ => Logic.I)) as (ab & Eab & _ & _).
  assert (G : forall g h rec, subrepr_permutation [0; 1]%nat g = Ok h -> (length h =? 1)%nat = false -> reduce_permutation_base h [0; 0]%nat = Ok [] -> rtp_general eigh eps rnd rec irs g keep = Err ValueError).
  { intros g h rec Eh Lh Er. unfold rtp_general. cbn [irs length seq mapM]. fold irs. rewrite Ea, Eb. cbn [bind rtp_loop]. change (set_union (length irs) [0%nat] [1%nat]) with [0; 1]%nat. rewrite Eab. cbn [bind]. rewrite Eh. cbn [bind]. rewrite Lh. unfold reduce_subgroup_permutation. rewrite Eh. cbn [bind]. rewrite Lh. unfold irs at 1. unfold picked. cbn [map nth]. rewrite D0. rewrite Er. cbn [bind]. unfold irs, masked. cbn [map length seq inb existsb Nat.eqb orb nth]. rewrite D0. reflexivity. }
  assert (Q : (1 <? num_irreps (nth 0 irs []))%nat = false) by (cbn [irs nth]; rewrite Nx; reflexivity).
  split; [unfold rtp_symmetric|unfold rtp_antisymmetric]; (match goal with |- context [bind (?f 2%nat) _] => destruct (f 2%nat) as [g|e] eqn:Eg; [|vm_compute in Eg; discriminate] end); vm_compute in Eg; injection Eg as <-; cbn [bind]; change (repeat x 2) with irs; cbn [rtp]; (destruct flag; [destruct (symmetric_perm_repr (length irs)) as [sy|e] eqn:Es; [|vm_compute in Es; discriminate]|]); cbn [bind]; rewrite Q, Bool.andb_false_r; (eapply G; [vm_compute; reflexivity|reflexivity|vm_compute; reflexivity]).
Qed.
End Wrong.

(* ---------- the hypotheses can be met ---------- *)
Theorem C58_eigh_exists : exists eigh, eigh_correct eigh.
Proof. exists SpectralProofs.eigh_of. intros d b1 b2. apply SpectralProofs.eigh_of_overlap. Qed.
(* ijk = jik = -ikj ... : antisymmetric tensors of two vectors and of three vectors, symmetric tensors of degree 3, with the formula interface *)
Example C58_nonvacuous : exists eigh, eigh_correct eigh /\ forall optimized,
  let vector := [(1%nat, Irrep 1 Odd)] in
  (exists b, rtp_antisymmetric eigh (1 / 100) (fun v => v) optimized true vector 2 None = Ok b /\ reduced_basis [vector; vector] None (fun T => forall p z, is_perm p = true -> length p = 2%nat -> valid [3%nat; 3%nat] z -> T (permute z p) = IZR (parity_sign p) * T z) b) /\
  (exists b, rtp_of_formula eigh (1 / 100) (fun v => v) optimized 13 true example_formula [(["j"%char], vector)] None = Some (Ok b) /\ reduced_basis [vector; vector; vector] None (satisfies (fun _ => 3%nat) ["i"; "j"; "k"]%char (sides_of example_formula)) b).
Proof.
  destruct C58_eigh_exists as [eigh Ev]. exists eigh. split; [exact Ev|]. intros optimized vector. assert (P : prod (map dim [vector; vector; vector]) = 27%nat) by reflexivity. assert (P2 : prod (map dim (repeat vector 2)) = 9%nat) by reflexivity. split.
  - destruct (C58_antisymmetric eigh (1 / 100) optimized Ev true vector 2 None) as (b & Eb & Rb); [lia| |cbn; lia|right; cbn; lia|exists b; split; [exact Eb|exact Rb]]. split; [lra|]. rewrite P2. cbn [INR]. lra.
  - destruct C50_nonvacuous as (Es & Ar & _ & _). destruct (C58_formula eigh (1 / 100) optimized Ev true example_formula ["i"; "j"; "k"]%char _ [(["j"%char], vector)] (fun _ => vector) None 13 Es Ar) as (b & Eb & Rb); [| |cbn; lia|cbn; lia| |intros; cbn; lia|right; intros; cbn; lia|exists b; split; [exact Eb|exact Rb]].
    + split; [repeat constructor; intros []|]. intros k v [E|[]]. injection E as <- <-. eexists. reflexivity.
    + constructor.
      * intros c v [E|[]]. injection E as <- <-. split; [right; left|]; reflexivity.
      * intros s f H. rewrite Es in H. cbn [In] in H. destruct H as [E|[E|[E|[]]]]; injection E as <- <-; reflexivity.
      * assert (S1 : exchanged ["i"; "j"; "k"]%char (sides_of example_formula) "i"%char "j"%char) by (rewrite Es; apply (ex_side ["i"; "j"; "k"]%char _ (-1)%Z ["j"; "i"; "k"]%char 0%nat); [right; left; reflexivity|cbn; lia]).
        assert (S2 : exchanged ["i"; "j"; "k"]%char (sides_of example_formula) "j"%char "k"%char) by (rewrite Es; apply (ex_side ["i"; "j"; "k"]%char _ 1%Z ["j"; "k"; "i"]%char 1%nat); [right; right; left; reflexivity|cbn; lia]).
        intros c [<-|[<-|[<-|[]]]]; exists "j"%char; (split; [|left; reflexivity]); [exact S1|apply ex_refl|apply ex_sym, S2].
    + split; [lra|]. change (map (fun _ : ascii => vector) ["i"%char; "j"%char; "k"%char]) with [vector; vector; vector]. rewrite P. cbn [INR]. lra.
Qed.
