(* Reduced bases: orthonormal families of multiplets that are complete for given irreps and a given subspace; products of reduced bases. *)
From Coq Require Import Reals Lra Lia List Arith Permutation.
From Verif Require Import PyBase PermModel IrrepsModel IrrepsProofs IrrepsProofs2 SumR S2Proofs3 RotationModel RotationProofs CGModel WignerModel WignerProofs WignerProofs2 WignerProps WignerProps2 CGComplete SchurProofs MultProofs CouplingProofs.
Import ListNotations.
Open Scope R_scope.

Section Reduced.
Context {A : Type}.
Variables (X : list A) (rho : mat -> A -> A -> R).
(* a linear subspace of the functions on X *)
Record subspace (W : (A -> R) -> Prop) : Prop := {
  sub_ext : forall f g, (forall x, In x X -> f x = g x) -> W f -> W g;
  sub_zero : W (fun _ => 0);
  sub_plus : forall f g, W f -> W g -> W (fun x => f x + g x);
  sub_scal : forall c f, W f -> W (fun x => c * f x) }.
Lemma sub_lsum {T} W (l : list T) c (h : T -> A -> R) : subspace W -> (forall a, In a l -> W (h a)) -> W (fun x => lsum l (fun a => c a * h a x)).
Proof.
  intros S. induction l as [|a l IH]; intros H; [exact (sub_zero W S)|].
  apply (sub_ext W S (fun x => c a * h a x + lsum l (fun b => c b * h b x))); [intros; reflexivity|]. apply (sub_plus W S); [apply (sub_scal W S), H; left; reflexivity|]. apply IH. intros b Hb. apply H. right. exact Hb.
Qed.
Lemma sub_rsum W n c (h : nat -> A -> R) : subspace W -> (forall k, (k < n)%nat -> W (h k)) -> W (fun x => rsum n (fun k => c k * h k x)).
Proof. intros S H. apply (sub_ext W S (fun x => lsum (seq 0 n) (fun k => c k * h k x))); [intros; apply lsum_seq|]. apply sub_lsum; [exact S|]. intros k Hk. apply in_seq in Hk. apply H. lia. Qed.

(* L is an orthonormal family of multiplets with irreps in K and components in W, and every multiplet with irrep in K and components in W is a combination of L *)
Record reduced (K : irrep -> Prop) (W : (A -> R) -> Prop) (L : list (mult A)) : Prop := {
  red_cov : Forall (covariant X rho) L;
  red_unit : Forall (unit_mult X) L;
  red_orth : pairwise (orth_mult X) L;
  red_keep : Forall (fun t => K (fst t)) L;
  red_in : forall t m, In t L -> (m < ir_dim (fst t))%nat -> W (comp t m);
  red_all : forall t, covariant X rho t -> K (fst t) -> (forall m, (m < ir_dim (fst t))%nat -> W (comp t m)) -> forall m, (m < ir_dim (fst t))%nat -> repro X (columns L) (comp t m) }.
(* L is an orthonormal family of multiplets that spans everything *)
Record full (L : list (mult A)) : Prop := {
  full_cov : Forall (covariant X rho) L;
  full_unit : Forall (unit_mult X) L;
  full_orth : pairwise (orth_mult X) L;
  full_all : forall f, repro X (columns L) f }.
Lemma lsum_columns (L : list (mult A)) (g : (A -> R) -> R) : lsum (columns L) g = lsum L (fun t => rsum (ir_dim (fst t)) (fun m => g (comp t m))).
Proof. unfold columns. rewrite lsum_flat_map. apply lsum_ext. intros t _. rewrite lsum_map. apply lsum_seq. Qed.
Lemma in_columns (L : list (mult A)) t m : In t L -> (m < ir_dim (fst t))%nat -> In (comp t m) (columns L).
Proof. intros H Hm. apply in_flat_map. exists t. split; [exact H|]. apply in_map_iff. exists m. split; [reflexivity|]. apply in_seq. lia. Qed.
Lemma orth_mult_sym t s : orth_mult X t s -> orth_mult X s t.
Proof. intros H m m' Hm Hm'. rewrite dot_sym. apply H; assumption. Qed.
Lemma columns_orthonormal L : Forall (unit_mult X) L -> pairwise (orth_mult X) L -> orthonormal_list X (columns L).
Proof.
  intros U P. rewrite Forall_forall in U. split.
  - apply Forall_forall. intros f Hf. apply in_flat_map in Hf as (t & Ht & Hf). apply in_map_iff in Hf as (m & <- & Hm). apply in_seq in Hm. rewrite (U t Ht m m) by lia. rewrite Nat.eqb_refl. reflexivity.
  - unfold columns. apply pairwise_flat_map.
    + intros t Ht. rewrite pairwise_map. apply (pairwise_impl (fun a b => a <> b)); [|apply pairwise_nodup, seq_NoDup]. intros m m' Hm Hm' N. apply in_seq in Hm, Hm'. rewrite (U t Ht m m') by lia. apply Nat.eqb_neq in N. rewrite N. reflexivity.
    + apply (pairwise_impl (orth_mult X)); [|exact P]. intros t s _ _ H f g Hf Hg. apply in_map_iff in Hf as (m & <- & Hm), Hg as (m' & <- & Hm'). apply in_seq in Hm, Hm'. apply H; lia.
Qed.
Lemma member_repro L t m : Forall (unit_mult X) L -> pairwise (orth_mult X) L -> In t L -> (m < ir_dim (fst t))%nat -> repro X (columns L) (comp t m).
Proof. intros U P H Hm. apply repro_member; [apply columns_orthonormal; assumption|]. apply in_columns; assumption. Qed.
Lemma columns_perm (L L' : list (mult A)) : Permutation L L' -> Permutation (columns L) (columns L').
Proof. apply Permutation_flat_map. Qed.
Lemma reduced_perm K W L L' : Permutation L L' -> reduced K W L -> reduced K W L'.
Proof.
  intros P [H1 H2 H3 H4 H5 H6]. constructor.
  - exact (Permutation_Forall P H1).
  - exact (Permutation_Forall P H2).
  - exact (pairwise_perm _ _ _ (fun a b H => orth_mult_sym a b H) P H3).
  - exact (Permutation_Forall P H4).
  - intros t m H. apply H5. exact (Permutation_in _ (Permutation_sym P) H).
  - intros t Ct Kt Wt m Hm. apply (repro_perm X (columns L)); [apply columns_perm, P|]. apply H6; assumption.
Qed.
Lemma full_reduced L : full L -> reduced (fun _ => True) (fun _ => True) L.
Proof. intros [H1 H2 H3 H4]. constructor; auto. apply Forall_forall. auto. Qed.
Lemma reduced_weaken K W W' L : (forall f, W f <-> W' f) -> reduced K W L -> reduced K W' L.
Proof.
  intros E [H1 H2 H3 H4 H5 H6]. constructor; auto.
  - intros t m Ht Hm. apply E. auto.
  - intros t Ct Kt Wt. apply H6; auto. intros m Hm. apply E. auto.
Qed.
Lemma reduced_keep_iff K K' W L : (forall c, K c <-> K' c) -> reduced K W L -> reduced K' W L.
Proof.
  intros E [H1 H2 H3 H4 H5 H6]. constructor; auto.
  - rewrite Forall_forall in *. intros t Ht. apply E, H4, Ht.
  - intros t Ct Kt. apply H6; [exact Ct|apply E, Kt].
Qed.
(* keeping fewer irreps *)
Lemma expand_filter (k : irrep -> bool) L f x : (forall t, In t L -> k (fst t) = false -> forall m, (m < ir_dim (fst t))%nat -> dot X f (comp t m) = 0) -> expand X (columns (filter (fun t => k (fst t)) L)) f x = expand X (columns L) f x.
Proof.
  intros H. unfold expand. rewrite !lsum_columns, lsum_filter. apply lsum_ext. intros t Ht. destruct (k (fst t)) eqn:E; [reflexivity|]. symmetry. apply rsum_zero. intros m Hm. rewrite (H t Ht E m Hm). ring.
Qed.
Lemma reduced_filter (Pr : preserving X rho) (k : irrep -> bool) (K K' : irrep -> Prop) W L : (forall c, K' c <-> K c /\ k c = true) -> reduced K W L -> reduced K' W (filter (fun t => k (fst t)) L).
Proof.
  intros E [H1 H2 H3 H4 H5 H6]. constructor.
  - rewrite Forall_forall in *. intros t Ht. apply filter_In in Ht as [Ht _]. auto.
  - rewrite Forall_forall in *. intros t Ht. apply filter_In in Ht as [Ht _]. auto.
  - apply pairwise_filter, H3.
  - rewrite Forall_forall in *. intros t Ht. apply filter_In in Ht as [Ht Kt]. apply E. auto.
  - intros t m Ht. apply filter_In in Ht as [Ht _]. auto.
  - intros t Ct Kt Wt m Hm x Hx. apply E in Kt as [Kt kt]. rewrite expand_filter; [apply H6; assumption|]. intros s Hs Es m' Hm'. rewrite Forall_forall in H1. apply (overlap_zero X rho Pr); auto. intros Q. congruence.
Qed.
End Reduced.

(* ---------- products ---------- *)
Record product_space {A B Z} (Xa : list A) (Xb : list B) (Xz : list Z) (ra : mat -> A -> A -> R) (rb : mat -> B -> B -> R) (rz : mat -> Z -> Z -> R) (ia : Z -> A) (ib : Z -> B) (jn : A -> B -> Z) : Prop := {
  ps_sum : forall g, lsum Xz g = lsum Xa (fun a => lsum Xb (fun b => g (jn a b)));
  ps_in : forall a b, In a Xa -> In b Xb -> In (jn a b) Xz;
  ps_a : forall a b, In a Xa -> In b Xb -> ia (jn a b) = a;
  ps_b : forall a b, In a Xa -> In b Xb -> ib (jn a b) = b;
  ps_ia : forall z, In z Xz -> In (ia z) Xa;
  ps_ib : forall z, In z Xz -> In (ib z) Xb;
  ps_z : forall z, In z Xz -> jn (ia z) (ib z) = z;
  ps_rho : forall r z z', orthogonal3 r -> In z Xz -> In z' Xz -> rz r z z' = ra r (ia z) (ia z') * rb r (ib z) (ib z') }.
Lemma product_swap {A B Z} (Xa : list A) (Xb : list B) (Xz : list Z) ra rb rz ia ib jn : product_space Xa Xb Xz ra rb rz ia ib jn -> product_space Xb Xa Xz rb ra rz ib ia (fun b a => jn a b).
Proof.
  intros [H1 H2 H3 H4 H5 H6 H7 H8]. constructor; auto.
  - intros g. rewrite H1. apply lsum_swap.
  - intros r z z' O Hz Hz'. rewrite H8 by assumption. ring.
Qed.
Section Products.
Context {A B Z : Type}.
Variables (Xa : list A) (Xb : list B) (Xz : list Z) (ra : mat -> A -> A -> R) (rb : mat -> B -> B -> R) (rz : mat -> Z -> Z -> R) (ia : Z -> A) (ib : Z -> B) (jn : A -> B -> Z).
Hypothesis PS : product_space Xa Xb Xz ra rb rz ia ib jn.
Hypothesis Pa : preserving Xa ra.
Hypothesis Pb : preserving Xb rb.

Lemma rot_split r f a b : orthogonal3 r -> In a Xa -> In b Xb -> rot Xz rz r f (jn a b) = rot Xb rb r (fun b' => rot Xa ra r (fun a' => f (jn a' b')) a) b.
Proof.
  intros O Ha Hb. unfold rot. rewrite (ps_sum _ _ _ _ _ _ _ _ _ PS), lsum_swap. apply lsum_ext. intros b' Hb'. rewrite <- lsum_scal. apply lsum_ext. intros a' Ha'. rewrite (ps_rho _ _ _ _ _ _ _ _ _ PS) by (auto; apply (ps_in _ _ _ _ _ _ _ _ _ PS); assumption). rewrite !(ps_a _ _ _ _ _ _ _ _ _ PS), !(ps_b _ _ _ _ _ _ _ _ _ PS) by assumption. ring.
Qed.
Lemma product_preserving : preserving Xz rz.
Proof.
  intros r f g O. unfold dot. rewrite !(ps_sum _ _ _ _ _ _ _ _ _ PS).
  transitivity (lsum Xa (fun a => dot Xb (fun b' => rot Xa ra r (fun a' => f (jn a' b')) a) (fun b' => rot Xa ra r (fun a' => g (jn a' b')) a))).
  - apply lsum_ext. intros a Ha. rewrite <- (Pb r _ _ O). apply lsum_ext. intros b Hb. rewrite !rot_split by assumption. reflexivity.
  - unfold dot. rewrite lsum_swap, (lsum_swap Xa Xb). apply lsum_ext. intros b Hb. exact (Pa r (fun a => f (jn a b)) (fun a => g (jn a b)) O).
Qed.
Definition pair_family (t : mult A) (s : mult B) : Z -> nat -> nat -> R := fun z i j => snd t (ia z) i * snd s (ib z) j.
Lemma pair_biplet t s : covariant Xa ra t -> covariant Xb rb s -> biplet Xz rz (fst t) (fst s) (pair_family t s).
Proof.
  intros Ct Cs r z i j O Hz Hi Hj. rewrite <- (ps_z _ _ _ _ _ _ _ _ _ PS z Hz) at 1. pose proof (ps_ia _ _ _ _ _ _ _ _ _ PS z Hz) as Ha. pose proof (ps_ib _ _ _ _ _ _ _ _ _ PS z Hz) as Hb. rewrite rot_split by assumption. unfold pair_family.
  transitivity (rot Xa ra r (comp t i) (ia z) * rot Xb rb r (comp s j) (ib z)).
  - unfold rot. rewrite <- lsum_scal. apply lsum_ext. intros b' Hb'. rewrite (lsum_ext Xa _ (fun a' => ra r (ia z) a' * snd t a' i * snd s b' j)) by (intros a' Ha'; rewrite (ps_a _ _ _ _ _ _ _ _ _ PS), (ps_b _ _ _ _ _ _ _ _ _ PS) by assumption; ring). rewrite lsum_scal_r. ring.
  - rewrite (Ct r (ia z) i O Ha Hi), (Cs r (ib z) j O Hb Hj). rewrite rsum_prod. apply rsum_ext. intros i' _. apply rsum_ext. intros j' _. ring.
Qed.
Definition product (t : mult A) (s : mult B) (c : irrep) : mult Z := couple (fst t) (fst s) c (pair_family t s).
(* reduced_tensor_product.py:580-615  all the couplings whose irrep passes k *)
Definition products (k : irrep -> bool) (La : list (mult A)) (Lb : list (mult B)) : list (mult Z) := flat_map (fun t => flat_map (fun s => map (product t s) (filter k (ir_mul (fst t) (fst s)))) Lb) La.
Lemma in_products k La Lb p : In p (products k La Lb) <-> exists t s c, In t La /\ In s Lb /\ In c (ir_mul (fst t) (fst s)) /\ k c = true /\ p = product t s c.
Proof.
  unfold products. rewrite in_flat_map. split.
  - intros (t & Ht & H). apply in_flat_map in H as (s & Hs & H). apply in_map_iff in H as (c & <- & H). apply filter_In in H as [H1 H2]. exists t, s, c. auto.
  - intros (t & s & c & Ht & Hs & Hc & Kc & ->). exists t. split; [exact Ht|]. apply in_flat_map. exists s. split; [exact Hs|]. apply in_map_iff. exists c. split; [reflexivity|]. apply filter_In. auto.
Qed.
Lemma product_covariant t s c : covariant Xa ra t -> covariant Xb rb s -> In c (ir_mul (fst t) (fst s)) -> covariant Xz rz (product t s c).
Proof. intros Ct Cs Hc. apply couple_covariant; [exact Hc|]. apply pair_biplet; assumption. Qed.
Lemma pair_dot t s t' s' i j i' j' : dot Xz (fun z => pair_family t s z i j) (fun z => pair_family t' s' z i' j') = dot Xa (comp t i) (comp t' i') * dot Xb (comp s j) (comp s' j').
Proof.
  unfold dot, pair_family. rewrite (ps_sum _ _ _ _ _ _ _ _ _ PS), <- lsum_scal_r. apply lsum_ext. intros a Ha. rewrite <- lsum_scal. apply lsum_ext. intros b Hb. rewrite !(ps_a _ _ _ _ _ _ _ _ _ PS), !(ps_b _ _ _ _ _ _ _ _ _ PS) by assumption. ring.
Qed.
Lemma product_dot t s c t' s' c' k k' : dot Xz (comp (product t s c) k) (comp (product t' s' c') k') =
  rsum (ir_dim (fst t)) (fun i => rsum (ir_dim (fst s)) (fun j => cpl (fst t) (fst s) c i j k * rsum (ir_dim (fst t')) (fun i' => rsum (ir_dim (fst s')) (fun j' => cpl (fst t') (fst s') c' i' j' k' * (dot Xa (comp t i) (comp t' i') * dot Xb (comp s j) (comp s' j')))))).
Proof.
  unfold product, couple. cbn [fst snd].
  set (U := fun i z => rsum (ir_dim (fst s)) (fun j => cpl (fst t) (fst s) c i j k * pair_family t s z i j)). set (U' := fun i z => rsum (ir_dim (fst s')) (fun j => cpl (fst t') (fst s') c' i j k' * pair_family t' s' z i j)).
  transitivity (dot Xz (fun z => rsum (ir_dim (fst t)) (fun i => 1 * U i z)) (fun z => rsum (ir_dim (fst t')) (fun i => 1 * U' i z))).
  { apply dot_ext; intros z Hz; apply rsum_ext; intros i Hi; rewrite Rmult_1_l; reflexivity. }
  rewrite (dot_rsum Xz (ir_dim (fst t)) (fun _ => 1) U). apply rsum_ext. intros i Hi. rewrite Rmult_1_l. unfold U. rewrite (dot_rsum Xz (ir_dim (fst s)) (fun j => cpl (fst t) (fst s) c i j k) (fun j z => pair_family t s z i j)). apply rsum_ext. intros j Hj. f_equal.
  rewrite (dot_rsum_r Xz (ir_dim (fst t')) (fun _ => 1) U'). apply rsum_ext. intros i' Hi'. rewrite Rmult_1_l. unfold U'. rewrite (dot_rsum_r Xz (ir_dim (fst s')) (fun j => cpl (fst t') (fst s') c' i' j k') (fun j z => pair_family t' s' z i' j)). apply rsum_ext. intros j' Hj'. rewrite pair_dot. reflexivity.
Qed.
Lemma product_orth t s c t' s' c' : orth_mult Xa t t' \/ orth_mult Xb s s' -> orth_mult Xz (product t s c) (product t' s' c').
Proof.
  intros H k k' Hk Hk'. rewrite product_dot. apply rsum_zero. intros i Hi. apply rsum_zero. intros j Hj. rewrite (rsum_zero (ir_dim (fst t'))); [ring|]. intros i' Hi'. apply rsum_zero. intros j' Hj'. destruct H as [H|H]; [rewrite (H i i') by assumption|rewrite (H j j') by assumption]; ring.
Qed.
Lemma product_same t s c c' k k' : unit_mult Xa t -> unit_mult Xb s -> dot Xz (comp (product t s c) k) (comp (product t s c') k') = rsum (ir_dim (fst t)) (fun i => rsum (ir_dim (fst s)) (fun j => cpl (fst t) (fst s) c i j k * cpl (fst t) (fst s) c' i j k')).
Proof.
  intros Ut Us. rewrite product_dot. apply rsum_ext. intros i Hi. apply rsum_ext. intros j Hj. f_equal.
  rewrite (rsum_ext (ir_dim (fst t)) _ (fun i' => delta i i' * cpl (fst t) (fst s) c' i' j k')).
  - apply (rsum_delta_r (ir_dim (fst t)) i (fun i' => cpl (fst t) (fst s) c' i' j k') Hi).
  - intros i' Hi'. rewrite (rsum_ext (ir_dim (fst s)) _ (fun j' => delta j j' * (delta i i' * cpl (fst t) (fst s) c' i' j' k'))) by (intros j' Hj'; rewrite (Ut i i'), (Us j j') by assumption; ring).
    apply (rsum_delta_r (ir_dim (fst s)) j (fun j' => delta i i' * cpl (fst t) (fst s) c' i' j' k') Hj).
Qed.
Lemma product_unit t s c : unit_mult Xa t -> unit_mult Xb s -> In c (ir_mul (fst t) (fst s)) -> unit_mult Xz (product t s c).
Proof. intros Ut Us Hc k k' Hk Hk'. rewrite product_same by assumption. apply cpl_unit; assumption. Qed.
Lemma products_unit k La Lb : Forall (unit_mult Xa) La -> Forall (unit_mult Xb) Lb -> Forall (unit_mult Xz) (products k La Lb).
Proof. rewrite !Forall_forall. intros Ua Ub p Hp. apply in_products in Hp as (t & s & c & Ht & Hs & Hc & _ & ->). apply product_unit; auto. Qed.
Lemma products_covariant k La Lb : Forall (covariant Xa ra) La -> Forall (covariant Xb rb) Lb -> Forall (covariant Xz rz) (products k La Lb).
Proof. rewrite !Forall_forall. intros Ua Ub p Hp. apply in_products in Hp as (t & s & c & Ht & Hs & Hc & _ & ->). apply product_covariant; auto. Qed.
Lemma products_orth k La Lb : Forall (unit_mult Xa) La -> Forall (unit_mult Xb) Lb -> pairwise (orth_mult Xa) La -> pairwise (orth_mult Xb) Lb -> pairwise (orth_mult Xz) (products k La Lb).
Proof.
  rewrite !Forall_forall. intros Ua Ub Oa Ob. unfold products. apply pairwise_flat_map.
  - intros t Ht. apply pairwise_flat_map.
    + intros s Hs. rewrite pairwise_map. apply (pairwise_impl (fun a b => a <> b)); [|apply pairwise_nodup, NoDup_filter, ir_mul_nodup]. intros c c' Hc Hc' N q q' Hq Hq'. apply filter_In in Hc as [Hc _], Hc' as [Hc' _]. rewrite product_same by auto. apply cpl_cross; assumption.
    + apply (pairwise_impl (orth_mult Xb)); [|exact Ob]. intros s s' _ _ H p p' Hp Hp'. apply in_map_iff in Hp as (c & <- & _), Hp' as (c' & <- & _). apply product_orth. right. exact H.
  - apply (pairwise_impl (orth_mult Xa)); [|exact Oa]. intros t t' _ _ H p p' Hp Hp'. apply in_flat_map in Hp as (s & _ & Hp), Hp' as (s' & _ & Hp'). apply in_map_iff in Hp as (c & <- & _), Hp' as (c' & <- & _). apply product_orth. left. exact H.
Qed.
(* a product of two functions is a combination of all the couplings *)
Lemma pair_repro La Lb t s i j : Forall (unit_mult Xa) La -> Forall (unit_mult Xb) Lb -> pairwise (orth_mult Xa) La -> pairwise (orth_mult Xb) Lb -> In t La -> In s Lb -> (i < ir_dim (fst t))%nat -> (j < ir_dim (fst s))%nat ->
  repro Xz (columns (products (fun _ => true) La Lb)) (fun z => pair_family t s z i j).
Proof.
  intros Ua Ub Oa Ob Ht Hs Hi Hj. apply (repro_ext Xz _ (fun z => lsum (ir_mul (fst t) (fst s)) (fun c => 1 * rsum (ir_dim c) (fun k => cpl (fst t) (fst s) c i j k * snd (product t s c) z k)))).
  { intros z Hz. rewrite (couple_expand (fst t) (fst s) (pair_family t s) z i j Hi Hj). apply lsum_ext. intros c _. apply Rmult_1_l. }
  apply (repro_lsum Xz _ (ir_mul (fst t) (fst s)) (fun _ => 1) (fun c z => rsum (ir_dim c) (fun k => cpl (fst t) (fst s) c i j k * snd (product t s c) z k))). intros c Hc.
  apply (repro_rsum Xz _ (ir_dim c) (fun k => cpl (fst t) (fst s) c i j k) (fun k z => snd (product t s c) z k)). intros k Hk.
  apply (member_repro Xz (products (fun _ => true) La Lb) (product t s c) k); [apply products_unit; assumption|apply products_orth; assumption| |exact Hk].
  apply in_products. exists t, s, c. auto.
Qed.
(* a function whose slices are combinations of La and of Lb is a combination of the couplings *)
Lemma slices_repro La Lb f : Forall (unit_mult Xa) La -> Forall (unit_mult Xb) Lb -> pairwise (orth_mult Xa) La -> pairwise (orth_mult Xb) Lb ->
  (forall b, In b Xb -> repro Xa (columns La) (fun a => f (jn a b))) -> (forall a, In a Xa -> repro Xb (columns Lb) (fun b => f (jn a b))) -> repro Xz (columns (products (fun _ => true) La Lb)) f.
Proof.
  intros Ua Ub Oa Ob Ha Hb.
  apply (repro_ext Xz _ (fun z => lsum La (fun t => 1 * rsum (ir_dim (fst t)) (fun i => 1 * lsum Lb (fun s => 1 * rsum (ir_dim (fst s)) (fun j => dot Xb (fun b => dot Xa (fun a => f (jn a b)) (comp t i)) (comp s j) * pair_family t s z i j)))))).
  - intros z Hz. transitivity (f (jn (ia z) (ib z))); [|rewrite (ps_z _ _ _ _ _ _ _ _ _ PS z Hz); reflexivity]. pose proof (ps_ia _ _ _ _ _ _ _ _ _ PS z Hz) as Hia. pose proof (ps_ib _ _ _ _ _ _ _ _ _ PS z Hz) as Hib.
    rewrite <- (Ha (ib z) Hib (ia z) Hia). unfold expand. rewrite lsum_columns. apply lsum_ext. intros t Ht. rewrite Rmult_1_l. apply rsum_ext. intros i Hi. rewrite Rmult_1_l.
    assert (Q : repro Xb (columns Lb) (fun b => dot Xa (fun a => f (jn a b)) (comp t i))).
    { apply (repro_ext Xb _ (fun b => lsum Xa (fun a => snd t a i * f (jn a b)))); [intros b _; apply lsum_ext; intros; ring|]. apply (repro_lsum Xb _ Xa (fun a => snd t a i) (fun a b => f (jn a b))). exact Hb. }
    rewrite <- (Q (ib z) Hib). unfold expand. rewrite lsum_columns. rewrite <- lsum_scal_r. apply lsum_ext. intros s Hs. rewrite Rmult_1_l, <- rsum_scal_r. apply rsum_ext. intros j Hj. unfold pair_family. ring.
  - apply (repro_lsum Xz _ La (fun _ => 1)). intros t Ht. apply (repro_rsum Xz _ (ir_dim (fst t)) (fun _ => 1) (fun i z => lsum Lb (fun s => 1 * rsum (ir_dim (fst s)) (fun j => dot Xb (fun b => dot Xa (fun a => f (jn a b)) (comp t i)) (comp s j) * pair_family t s z i j)))). intros i Hi.
    apply (repro_lsum Xz _ Lb (fun _ => 1) (fun s z => rsum (ir_dim (fst s)) (fun j => dot Xb (fun b => dot Xa (fun a => f (jn a b)) (comp t i)) (comp s j) * pair_family t s z i j))). intros s Hs.
    apply (repro_rsum Xz _ (ir_dim (fst s)) _ (fun j z => pair_family t s z i j)). intros j Hj. apply pair_repro; assumption.
Qed.
Lemma product_full La Lb : full Xa ra La -> full Xb rb Lb -> full Xz rz (products (fun _ => true) La Lb).
Proof.
  intros [A1 A2 A3 A4] [B1 B2 B3 B4]. constructor.
  - apply products_covariant; assumption.
  - apply products_unit; assumption.
  - apply products_orth; assumption.
  - intros f. apply slices_repro; auto.
Qed.
(* a multiplet of the product, contracted with a multiplet of the second factor *)
Lemma contract_biplet T u : covariant Xz rz T -> covariant Xb rb u -> biplet Xa ra (fst T) (fst u) (fun a m j => dot Xb (fun b => snd T (jn a b) m) (comp u j)).
Proof.
  intros CT Cu r a m j O Ha Hm Hj.
  transitivity (dot Xb (fun b => rot Xa ra r (fun a' => snd T (jn a' b) m) a) (comp u j)).
  { unfold rot, dot. rewrite (lsum_ext Xa _ (fun a' => lsum Xb (fun b => ra r a a' * snd T (jn a' b) m * snd u b j))) by (intros; rewrite <- lsum_scal; apply lsum_ext; intros; ring). rewrite lsum_swap. apply lsum_ext. intros b _. apply lsum_scal_r. }
  rewrite <- (Pb r _ _ O).
  transitivity (dot Xb (fun b => rsum (ir_dim (fst T)) (fun m' => D_from_matrix r (fst T) m' m * snd T (jn a b) m')) (fun b => rsum (ir_dim (fst u)) (fun j' => D_from_matrix r (fst u) j' j * snd u b j'))).
  - apply dot_ext.
    + intros b Hb. rewrite <- (rot_split r (comp T m) a b O Ha Hb). apply CT; [exact O| |exact Hm]. apply (ps_in _ _ _ _ _ _ _ _ _ PS); assumption.
    + intros b Hb. apply Cu; assumption.
  - rewrite (dot_rsum Xb (ir_dim (fst T)) (fun m' => D_from_matrix r (fst T) m' m) (fun m' b => snd T (jn a b) m')). apply rsum_ext. intros m' _. rewrite (dot_rsum_r Xb (ir_dim (fst u)) (fun j' => D_from_matrix r (fst u) j' j) (fun j' b => snd u b j')), <- rsum_scal. apply rsum_ext. intros j' _. ring.
Qed.
Lemma slice_repro Ka Wa La Fb T : reduced Xa ra Ka Wa La -> subspace Xa Wa -> full Xb rb Fb -> covariant Xz rz T -> (forall u c, In u Fb -> In c (ir_mul (fst T) (fst u)) -> Ka c) ->
  (forall b m, In b Xb -> (m < ir_dim (fst T))%nat -> Wa (fun a => snd T (jn a b) m)) -> forall b m, In b Xb -> (m < ir_dim (fst T))%nat -> repro Xa (columns La) (fun a => snd T (jn a b) m).
Proof.
  intros RA SA [F1 F2 F3 F4] CT HK HW b m Hb Hm. rewrite Forall_forall in F1.
  set (V := fun (u : mult B) (a : A) (p j : nat) => dot Xb (fun b' => snd T (jn a b') p) (comp u j)).
  apply (repro_ext Xa _ (fun a => lsum Fb (fun u => 1 * rsum (ir_dim (fst u)) (fun j => snd u b j * V u a m j)))).
  { intros a Ha. rewrite <- (F4 (fun b => snd T (jn a b) m) b Hb). unfold expand. rewrite lsum_columns. apply lsum_ext. intros u _. rewrite Rmult_1_l. apply rsum_ext. intros j _. unfold V. ring. }
  apply (repro_lsum Xa _ Fb (fun _ => 1) (fun u a => rsum (ir_dim (fst u)) (fun j => snd u b j * V u a m j))). intros u Hu.
  apply (repro_rsum Xa _ (ir_dim (fst u)) (fun j => snd u b j) (fun j a => V u a m j)). intros j Hj.
  apply (repro_ext Xa _ (fun a => lsum (ir_mul (fst T) (fst u)) (fun c => 1 * rsum (ir_dim c) (fun k => cpl (fst T) (fst u) c m j k * snd (couple (fst T) (fst u) c (V u)) a k)))).
  { intros a Ha. rewrite (couple_expand (fst T) (fst u) (V u) a m j Hm Hj). apply lsum_ext. intros c _. apply Rmult_1_l. }
  apply (repro_lsum Xa _ (ir_mul (fst T) (fst u)) (fun _ => 1) (fun c a => rsum (ir_dim c) (fun k => cpl (fst T) (fst u) c m j k * snd (couple (fst T) (fst u) c (V u)) a k))). intros c Hc.
  apply (repro_rsum Xa _ (ir_dim c) (fun k => cpl (fst T) (fst u) c m j k) (fun k a => snd (couple (fst T) (fst u) c (V u)) a k)). intros k Hk.
  apply (red_all Xa ra Ka Wa La RA (couple (fst T) (fst u) c (V u))).
  - apply couple_covariant; [exact Hc|]. apply contract_biplet; auto.
  - exact (HK u c Hu Hc).
  - intros k' Hk'. cbn [fst snd couple]. apply (sub_ext Xa Wa SA (fun a => rsum (ir_dim (fst T)) (fun i => 1 * rsum (ir_dim (fst u)) (fun j => cpl (fst T) (fst u) c i j k' * V u a i j)))); [intros; apply rsum_ext; intros; ring|].
    apply (sub_rsum Xa Wa (ir_dim (fst T)) (fun _ => 1) (fun i a => rsum (ir_dim (fst u)) (fun j => cpl (fst T) (fst u) c i j k' * V u a i j)) SA). intros i Hi.
    apply (sub_rsum Xa Wa (ir_dim (fst u)) (fun j => cpl (fst T) (fst u) c i j k') (fun j a => V u a i j) SA). intros j' Hj'. unfold V, dot.
    apply (sub_ext Xa Wa SA (fun a => lsum Xb (fun b => snd u b j' * snd T (jn a b) i))); [intros; apply lsum_ext; intros; ring|].
    apply (sub_lsum Xa Wa Xb (fun b => snd u b j') (fun b a => snd T (jn a b) i) SA). intros b' Hb'. apply HW; assumption.
  - exact Hk.
Qed.
End Products.

Section ProductReduced.
Context {A B Z : Type}.
Variables (Xa : list A) (Xb : list B) (Xz : list Z) (ra : mat -> A -> A -> R) (rb : mat -> B -> B -> R) (rz : mat -> Z -> Z -> R) (ia : Z -> A) (ib : Z -> B) (jn : A -> B -> Z).
Hypothesis PS : product_space Xa Xb Xz ra rb rz ia ib jn.
Hypothesis Pa : preserving Xa ra.
Hypothesis Pb : preserving Xb rb.
(* the functions with slices in Wa and Wb *)
Definition both (Wa : (A -> R) -> Prop) (Wb : (B -> R) -> Prop) (f : Z -> R) : Prop := (forall b, In b Xb -> Wa (fun a => f (jn a b))) /\ (forall a, In a Xa -> Wb (fun b => f (jn a b))).
Lemma both_subspace Wa Wb : subspace Xa Wa -> subspace Xb Wb -> subspace Xz (both Wa Wb).
Proof.
  intros SA SB. constructor.
  - intros f g E [H1 H2]. split.
    + intros b Hb. apply (sub_ext Xa Wa SA (fun a => f (jn a b))); [|auto]. intros a Ha. apply E. apply (ps_in _ _ _ _ _ _ _ _ _ PS); assumption.
    + intros a Ha. apply (sub_ext Xb Wb SB (fun b => f (jn a b))); [|auto]. intros b Hb. apply E. apply (ps_in _ _ _ _ _ _ _ _ _ PS); assumption.
  - split; intros; [apply (sub_zero Xa Wa SA)|apply (sub_zero Xb Wb SB)].
  - intros f g [F1 F2] [G1 G2]. split; [intros b Hb; apply (sub_plus Xa Wa SA (fun a => f (jn a b)) (fun a => g (jn a b))); auto|intros a Ha; apply (sub_plus Xb Wb SB (fun b => f (jn a b)) (fun b => g (jn a b))); auto].
  - intros c f [F1 F2]. split; [intros b Hb; apply (sub_scal Xa Wa SA c (fun a => f (jn a b))); auto|intros a Ha; apply (sub_scal Xb Wb SB c (fun b => f (jn a b))); auto].
Qed.
Lemma filter_true_map {T U} (f : T -> U) (k : U -> bool) (k' : T -> bool) l : (forall x, k (f x) = k' x) -> filter k (map f l) = map f (filter k' l).
Proof. intros H. induction l as [|x l IH]; [reflexivity|]. cbn [map filter]. rewrite H, IH. destruct (k' x); reflexivity. Qed.
Lemma filter_flat_map {T U} (f : T -> list U) (k : U -> bool) l : filter k (flat_map f l) = flat_map (fun x => filter k (f x)) l.
Proof. induction l as [|x l IH]; [reflexivity|]. cbn [flat_map]. rewrite filter_app, IH. reflexivity. Qed.
Lemma filter_all {T} (l : list T) : filter (fun _ => true) l = l.
Proof. induction l as [|x l IH]; [reflexivity|]. cbn [filter]. rewrite IH. reflexivity. Qed.
Lemma products_filter k (La : list (mult A)) (Lb : list (mult B)) : products ia ib k La Lb = filter (fun p => k (fst p)) (products ia ib (fun _ => true) La Lb).
Proof.
  unfold products. rewrite filter_flat_map. apply flat_map_ext. intros t. rewrite filter_flat_map. apply flat_map_ext. intros s. rewrite filter_all. symmetry. apply filter_true_map. reflexivity.
Qed.
(* what reduce_basis_product does *)
Theorem product_reduced (k : irrep -> bool) Ka Wa La Kb Wb Lb Fa Fb : reduced Xa ra Ka Wa La -> reduced Xb rb Kb Wb Lb -> subspace Xa Wa -> subspace Xb Wb -> full Xa ra Fa -> full Xb rb Fb ->
  (forall ir u c, k ir = true -> In u Fb -> In c (ir_mul ir (fst u)) -> Ka c) -> (forall ir u c, k ir = true -> In u Fa -> In c (ir_mul ir (fst u)) -> Kb c) ->
  reduced Xz rz (fun ir => k ir = true) (both Wa Wb) (products ia ib k La Lb).
Proof.
  intros RA RB SA SB FA FB HKa HKb. pose proof (product_preserving Xa Xb Xz ra rb rz ia ib jn PS Pa Pb) as Pz. constructor.
  - apply (products_covariant Xa Xb Xz ra rb rz ia ib jn PS); [exact (red_cov _ _ _ _ _ RA)|exact (red_cov _ _ _ _ _ RB)].
  - apply (products_unit Xa Xb Xz ra rb rz ia ib jn PS); [exact (red_unit _ _ _ _ _ RA)|exact (red_unit _ _ _ _ _ RB)].
  - apply (products_orth Xa Xb Xz ra rb rz ia ib jn PS); [exact (red_unit _ _ _ _ _ RA)|exact (red_unit _ _ _ _ _ RB)|exact (red_orth _ _ _ _ _ RA)|exact (red_orth _ _ _ _ _ RB)].
  - apply Forall_forall. intros p Hp. apply in_products in Hp as (t & s & c & _ & _ & _ & Kc & ->). exact Kc.
  - intros p m Hp Hm. apply in_products in Hp as (t & s & c & Ht & Hs & Hc & _ & ->). cbn [fst snd product couple] in *. split.
    + intros b Hb. apply (sub_ext Xa Wa SA (fun a => rsum (ir_dim (fst t)) (fun i => rsum (ir_dim (fst s)) (fun j => cpl (fst t) (fst s) c i j m * snd s b j) * snd t a i))).
      { intros a Ha. apply rsum_ext. intros i _. rewrite <- rsum_scal_r. apply rsum_ext. intros j _. unfold pair_family. rewrite (ps_a _ _ _ _ _ _ _ _ _ PS), (ps_b _ _ _ _ _ _ _ _ _ PS) by assumption. ring. }
      apply (sub_rsum Xa Wa (ir_dim (fst t)) (fun i => rsum (ir_dim (fst s)) (fun j => cpl (fst t) (fst s) c i j m * snd s b j)) (fun i a => snd t a i) SA). intros i Hi. exact (red_in _ _ _ _ _ RA t i Ht Hi).
    + intros a Ha. apply (sub_ext Xb Wb SB (fun b => rsum (ir_dim (fst s)) (fun j => rsum (ir_dim (fst t)) (fun i => cpl (fst t) (fst s) c i j m * snd t a i) * snd s b j))).
      { intros b Hb. rewrite (rsum_swap (ir_dim (fst t))). apply rsum_ext. intros j _. rewrite <- rsum_scal_r. apply rsum_ext. intros i _. unfold pair_family. rewrite (ps_a _ _ _ _ _ _ _ _ _ PS), (ps_b _ _ _ _ _ _ _ _ _ PS) by assumption. ring. }
      apply (sub_rsum Xb Wb (ir_dim (fst s)) (fun j => rsum (ir_dim (fst t)) (fun i => cpl (fst t) (fst s) c i j m * snd t a i)) (fun j b => snd s b j) SB). intros j Hj. exact (red_in _ _ _ _ _ RB s j Hs Hj).
  - intros T CT KT HW m Hm.
    assert (Q : repro Xz (columns (products ia ib (fun _ => true) La Lb)) (comp T m)).
    { apply (slices_repro Xa Xb Xz ra rb rz ia ib jn PS); [exact (red_unit _ _ _ _ _ RA)|exact (red_unit _ _ _ _ _ RB)|exact (red_orth _ _ _ _ _ RA)|exact (red_orth _ _ _ _ _ RB)| |].
      - intros b Hb. apply (slice_repro Xa Xb Xz ra rb rz ia ib jn PS Pb Ka Wa La Fb T RA SA FB CT); [intros u c; apply (HKa (fst T)); exact KT| |exact Hb|exact Hm]. intros b' m' Hb' Hm'. exact (proj1 (HW m' Hm') b' Hb').
      - intros a Ha. apply (slice_repro Xb Xa Xz rb ra rz ib ia (fun b a => jn a b) (product_swap _ _ _ _ _ _ _ _ _ PS) Pa Kb Wb Lb Fa T RB SB FA CT); [intros u c; apply (HKb (fst T)); exact KT| |exact Ha|exact Hm]. intros a' m' Ha' Hm'. exact (proj2 (HW m' Hm') a' Ha'). }
    intros z Hz. rewrite products_filter, expand_filter; [exact (Q z Hz)|]. intros p Hp Ep m' Hm'. apply (overlap_zero Xz rz Pz); [exact CT| |congruence|exact Hm|exact Hm'].
    pose proof (products_covariant Xa Xb Xz ra rb rz ia ib jn PS (fun _ => true) La Lb (red_cov _ _ _ _ _ RA) (red_cov _ _ _ _ _ RB)) as CP. rewrite Forall_forall in CP. exact (CP p Hp).
Qed.
End ProductReduced.
