(* C50: index formulas with signs.  A formula is a list of sides; a side is a sign and a word of letters; the first side is the reference. *)
From Coq Require Import Reals Lra ZArith Ascii List Bool Arith Lia Permutation Sorted.
From Verif Require Import PyBase PermModel PermProofs IrrepsModel IrrepsStr IrrepsStrProofs ArrayModel LeadModel LeadProofs StackProofs SumR ScatterProps SymModel SymProofs SymProofs2.
Import ListNotations.

(* ---------- specification ---------- *)
(* the sides of a formula as the code reads them *)
Definition sides_of (formula : chars) : list (Z * chars) := map parse_side (split "=" formula).
(* writing a side, and a formula *)
Definition render_side (a : Z * chars) : chars := if Z.eqb (fst a) 1 then snd a else ("-"%char :: snd a).
Fixpoint render (l : list (Z * chars)) : chars := match l with [] => [] | [a] => render_side a | a :: r => render_side a ++ "="%char :: render r end.
(* every side is an arrangement of the same distinct letters *)
Definition arrangements (f0 : chars) (l : list (Z * chars)) : Prop := NoDup f0 /\ forall s f, In (s, f) l -> Permutation f f0.
(* a tensor satisfies the formula: T[f0] = s T[f] for all values of the letters; dim c is the dimension of the axis named c *)
Definition satisfies (dim : ascii -> nat) (f0 : chars) (l : list (Z * chars)) (T : idx -> R) : Prop :=
  forall s f v, In (s, f) l -> (forall c, In c f0 -> v c < dim c) -> T (map v f0) = (IZR s * T (map v f))%R.
(* axes exchanged by the formula have the same dimension *)
Definition same_dims (dim : ascii -> nat) (f0 : chars) (l : list (Z * chars)) : Prop := forall s f, In (s, f) l -> map dim f = map dim f0.

(* ---------- words ---------- *)
Definition cnat (c : ascii) (f : chars) : nat := match cindex c f with Ok k => k | Err _ => 0 end.
Lemma cindex_ok c f d : In c f -> cindex c f = Ok (cnat c f) /\ cnat c f < length f /\ nth (cnat c f) f d = c.
Proof.
  unfold cnat. induction f as [|b f IH]; [intros []|]. intros H. cbn [cindex]. destruct (Ascii.eqb_spec c b) as [->|N]; [repeat split; cbn; lia|].
  destruct H as [->|H]; [congruence|]. destruct (IH H) as (E & L & Q). rewrite E in *. cbn [rmap length nth]. repeat split; [lia|exact Q].
Qed.
Lemma cnat_nth f k d : NoDup f -> k < length f -> cnat (nth k f d) f = k.
Proof. intros N H. destruct (cindex_ok (nth k f d) f d (nth_In _ _ H)) as (_ & L & Q). exact (proj1 (NoDup_nth f d) N _ _ L H Q). Qed.
Lemma distinct_NoDup f : distinct f = true <-> NoDup f.
Proof.
  induction f as [|c f IH]; cbn [distinct]; [split; constructor|]. rewrite andb_true_iff, negb_true_iff, IH. split.
  - intros [H N]. constructor; [|exact N]. intros Hin. rewrite <- not_true_iff_false in H. apply H. apply existsb_exists. exists c. split; [exact Hin|apply Ascii.eqb_refl].
  - intros N. apply NoDup_cons_iff in N as [H N]. split; [|exact N]. apply not_true_iff_false. intros Q. apply existsb_exists in Q as (b & Hb & E). apply Ascii.eqb_eq in E. subst b. contradiction.
Qed.
Lemma subset_incl f h : subset f h = true <-> incl f h.
Proof.
  unfold subset. rewrite forallb_forall. split; intros H c Hc; [apply H in Hc; apply existsb_exists in Hc as (b & Hb & E); apply Ascii.eqb_eq in E; subst; exact Hb|].
  apply existsb_exists. exists c. split; [exact (H c Hc)|apply Ascii.eqb_refl].
Qed.
Lemma check_side_ok f0 s f : NoDup f0 -> (check_side f0 (s, f) = Ok tt <-> Permutation f f0).
Proof.
  intros N0. unfold check_side. cbn [snd]. destruct (distinct f) eqn:D; cbn [negb orb].
  - apply distinct_NoDup in D. destruct (subset f f0 && subset f0 f) eqn:Q; cbn [negb].
    + apply andb_true_iff in Q as [Q1 Q2]. apply subset_incl in Q1, Q2. assert (P : Permutation f f0) by (apply NoDup_Permutation; [exact D|exact N0|]; intros c; split; [apply Q1|apply Q2]).
      rewrite (Permutation_length P), Nat.eqb_refl. cbn [negb]. tauto.
    + split; [discriminate|]. intros P. exfalso. apply not_true_iff_false in Q. apply Q. apply andb_true_iff. split; apply subset_incl; intros c; apply Permutation_in; [exact P|symmetry; exact P].
  - split; [discriminate|]. intros P. exfalso. apply not_true_iff_false in D. apply D, distinct_NoDup. apply (Permutation_NoDup (Permutation_sym P) N0).
Qed.
Lemma check_side_err f0 a : check_side f0 a = Ok tt \/ check_side f0 a = Err RuntimeError.
Proof. unfold check_side. destruct (_ || _); [right; reflexivity|]. destruct (negb _); [right|left]; reflexivity. Qed.
Lemma checks_ok f0 l : In f0 (map snd l) -> (mapM (check_side f0) l = Ok (map (fun _ => tt) l) <-> arrangements f0 l).
Proof.
  intros H0. split.
  - intros E. assert (A : forall a, In a l -> check_side f0 a = Ok tt).
    { intros a Ha. clear H0. induction l as [|b l IH]; [destruct Ha|]. cbn [mapM map] in E. destruct (check_side f0 b) as [[]|] eqn:Eb; [|discriminate]. destruct (mapM (check_side f0) l) as [r|]; [|discriminate]. injection E as E. destruct Ha as [<-|Ha]; [exact Eb|]. apply IH; [rewrite E; reflexivity|exact Ha]. }
    assert (N0 : NoDup f0).
    { apply in_map_iff in H0 as ([s f] & Q & H). cbn in Q. subst f. apply A in H. unfold check_side in H. cbn [snd] in H. destruct (distinct f0) eqn:D; [apply distinct_NoDup, D|discriminate]. }
    split; [exact N0|]. intros s f H. apply (check_side_ok f0 s f N0). exact (A _ H).
  - intros [N0 A]. apply mapM_Ok. intros [s f] H. apply check_side_ok; [exact N0|]. exact (A s f H).
Qed.
Lemma checks_err f0 l : mapM (check_side f0) l = Ok (map (fun _ => tt) l) \/ mapM (check_side f0) l = Err RuntimeError.
Proof.
  induction l as [|a l IH]; [left; reflexivity|]. cbn [mapM map]. destruct (check_side_err f0 a) as [-> | ->]; [|right; reflexivity]. destruct IH as [-> | ->]; [left|right]; reflexivity.
Qed.

(* ---------- generators ---------- *)
Definition gen (f0 : chars) (a : Z * chars) : signed := (fst a, map (fun c => cnat c (snd a)) f0).
Lemma gen_Ok f0 a : Permutation (snd a) f0 -> generator f0 a = Ok (gen f0 a).
Proof.
  intros P. unfold generator. rewrite (mapM_Ok _ (fun c => cnat c (snd a))); [reflexivity|]. intros c Hc. apply (cindex_ok c (snd a) "a"). exact (Permutation_in _ (Permutation_sym P) Hc).
Qed.
Lemma nth_mapc {B} (v : ascii -> B) f k d0 d : k < length f -> nth k (map v f) d = v (nth k f d0).
Proof. intros H. rewrite (nth_indep _ d (v d0)) by (rewrite map_length; exact H). apply map_nth. Qed.
Lemma gen_nth f0 a k d : k < length f0 -> nth k (snd (gen f0 a)) d = cnat (nth k f0 "a"%char) (snd a).
Proof. intros H. unfold gen. cbn [snd]. apply (nth_mapc (fun c => cnat c (snd a))). exact H. Qed.
Lemma gen_perm f0 a : NoDup f0 -> Permutation (snd a) f0 -> is_perm (snd (gen f0 a)) = true /\ length (snd (gen f0 a)) = length f0.
Proof.
  intros N P. assert (L : length (snd (gen f0 a)) = length f0) by (unfold gen; cbn [snd]; apply map_length). split; [|exact L].
  assert (Hin : forall k, k < length f0 -> In (nth k f0 "a"%char) (snd a)) by (intros k Hk; apply (Permutation_in _ (Permutation_sym P)), nth_In, Hk).
  apply perm_of_inj; rewrite L.
  - intros i Hi. rewrite gen_nth by exact Hi. destruct (cindex_ok _ (snd a) "a"%char (Hin i Hi)) as (_ & Q & _). rewrite <- (Permutation_length P). exact Q.
  - intros i j Hi Hj. rewrite !gen_nth by assumption. intros E. destruct (cindex_ok _ (snd a) "a"%char (Hin i Hi)) as (_ & _ & Q), (cindex_ok _ (snd a) "a"%char (Hin j Hj)) as (_ & _ & Q').
    rewrite E in Q. rewrite Q in Q'. exact (proj1 (NoDup_nth f0 "a"%char) N i j Hi Hj Q').
Qed.
(* reading the letters of the side in the order of the reference *)
Lemma gen_permute (v : ascii -> nat) f0 a : Permutation (snd a) f0 -> permute (map v (snd a)) (snd (gen f0 a)) = map v f0.
Proof.
  intros P. apply nth_ext0; [unfold permute, gen; cbn [snd]; rewrite !map_length; reflexivity|]. unfold permute at 1. unfold gen at 1. cbn [snd]. rewrite !map_length. intros k Hk.
  rewrite permute_nth by (unfold gen; cbn [snd]; rewrite map_length; exact Hk). rewrite gen_nth by exact Hk.
  assert (Hin : In (nth k f0 "a"%char) (snd a)) by (apply (Permutation_in _ (Permutation_sym P)), nth_In, Hk).
  destruct (cindex_ok _ (snd a) "a"%char Hin) as (_ & Q & E). rewrite (nth_mapc v (snd a) _ "a"%char) by exact Q. rewrite E. rewrite (nth_mapc v f0 _ "a"%char) by exact Hk. reflexivity.
Qed.
Lemma parse_sign f : is_sign (fst (parse_side f)).
Proof. unfold parse_side. cbn [fst]. destruct f as [|c f]; [left; reflexivity|]. destruct (Ascii.eqb c "-"); [right|left]; reflexivity. Qed.
Lemma sides_sign formula s f : In (s, f) (sides_of formula) -> is_sign s.
Proof. intros H. apply in_map_iff in H as (w & E & _). pose proof (parse_sign w) as Q. rewrite E in Q. exact Q. Qed.

Lemma gens_signed f0 l : arrangements f0 l -> (forall s f, In (s, f) l -> is_sign s) -> signed_perms (length f0) (map (gen f0) l).
Proof.
  intros [N A] Hs s p H. apply in_map_iff in H as ([t f] & E & H). assert (E1 : s = t) by (unfold gen in E; cbn in E; congruence). assert (E2 : p = snd (gen f0 (t, f))) by (rewrite E; reflexivity). subst s p.
  split; [exact (Hs t f H)|]. apply gen_perm; [exact N|exact (A t f H)].
Qed.
Lemma gen_self f0 s : NoDup f0 -> gen f0 (s, f0) = (s, identity (length f0)).
Proof.
  intros N. unfold gen. cbn [fst snd]. f_equal. apply nth_ext0; [rewrite map_length; unfold identity; rewrite seq_length; reflexivity|]. rewrite map_length. intros k Hk.
  rewrite (nth_mapc (fun c => cnat c f0) f0 k "a"%char) by exact Hk. unfold identity. rewrite seq_nth by exact Hk. apply cnat_nth; assumption.
Qed.

(* the group of the sides: the signed permutations generated by reading each side in the order of the reference *)
Definition group_of (f0 : chars) (l : list (Z * chars)) (a : signed) : Prop := sgenerated (map (gen f0) l) a.
Lemma sgenerated_ext S S' a : (forall b, In b S <-> In b S') -> sgenerated S a -> sgenerated S' a.
Proof. intros H Q. induction Q as [a Ha|s p q Hp IHp Hq|s p t q r Hp IHp Hq IHq Hr]; [apply sgen_in, H, Ha|exact (sgen_inv _ s p q IHp Hq)|exact (sgen_comp _ s p t q r IHp IHq Hr)]. Qed.
Lemma sgenerated_group n S G : signed_perms n G -> In (1%Z, identity n) S -> (forall a, In a G <-> sgenerated S a) -> signed_group n G.
Proof.
  intros P H1 E. split; [exact P|]. split; [apply E, sgen_in, H1|]. split.
  - intros s p q Hp Hq. apply E. apply (sgen_inv S s p q); [apply E, Hp|exact Hq].
  - intros s p t q r Hp Hq Hr. apply E. apply (sgen_comp S s p t q r); [apply E, Hp|apply E, Hq|exact Hr].
Qed.

(* germinate_perm_repr: accepted exactly when the reference has no sign and all sides are arrangements of the same distinct letters; the loop ends; the result is the generated group *)
Theorem C50_germinate formula s0 f0 rest fuel : sides_of formula = (s0, f0) :: rest -> s0 = 1%Z -> arrangements f0 (sides_of formula) -> 2 * fact (length f0) < fuel ->
  exists g, germinate_perm_repr fuel formula = Some (Ok (f0, g)) /\ NoDup g /\ signed_group (length f0) g /\ (forall a, In a g <-> group_of f0 (sides_of formula) a).
Proof.
  intros E -> A Hf. unfold germinate_perm_repr. fold (sides_of formula). pose proof (sides_sign formula) as Sg. rewrite E in *. cbn [negb Z.eqb Pos.eqb].
  rewrite (proj2 (checks_ok f0 ((1%Z, f0) :: rest) (or_introl eq_refl)) A).
  rewrite (mapM_Ok (generator f0) (gen f0)) by (intros [s f] H; apply gen_Ok; exact (proj2 A s f H)).
  set (gens := map (gen f0) ((1%Z, f0) :: rest)) in *.
  assert (Q : signed_perms (length f0) (sunion [] gens)) by (intros s p H; apply sunion_In in H as [[]|H]; exact (gens_signed f0 _ A Sg s p H)).
  destruct (sgerminate_ok (length f0) (sunion [] gens) Q (sunion_NoDup [] gens (NoDup_nil _)) fuel ltac:(lia)) as (G & -> & N & P & HG). exists G. split; [reflexivity|]. split; [exact N|].
  assert (EG : forall a, In a G <-> group_of f0 ((1%Z, f0) :: rest) a).
  { intros a. rewrite HG. unfold group_of. fold gens. split; apply sgenerated_ext; intros b; rewrite sunion_In; cbn [In]; tauto. }
  split; [|exact EG]. apply (sgenerated_group (length f0) gens G P); [|exact EG]. left. apply gen_self, (proj1 A).
Qed.
Theorem C50_germinate_rejects formula s0 f0 rest fuel : sides_of formula = (s0, f0) :: rest ->
  (s0 <> 1%Z -> germinate_perm_repr fuel formula = Some (Err AssertionError)) /\
  (s0 = 1%Z -> ~ arrangements f0 (sides_of formula) -> germinate_perm_repr fuel formula = Some (Err RuntimeError)).
Proof.
  intros E. unfold germinate_perm_repr. fold (sides_of formula). rewrite E. split.
  - intros N. destruct (Z.eqb_spec s0 1); [contradiction|reflexivity].
  - intros -> A. cbn [negb Z.eqb Pos.eqb]. destruct (checks_err f0 ((1%Z, f0) :: rest)) as [Q | ->]; [|reflexivity]. exfalso. apply A. apply (checks_ok f0 ((1%Z, f0) :: rest) (or_introl eq_refl)). exact Q.
Qed.
(* the sides are what is written *)
Lemma filter_id f : ~ In "-"%char f -> filter (fun c => negb (Ascii.eqb c "-")) f = f.
Proof. induction f as [|c f IH]; intros H; [reflexivity|]. cbn [filter]. destruct (Ascii.eqb_spec c "-") as [->|N]; [destruct H; left; reflexivity|]. cbn [negb]. f_equal. apply IH. intros Q. apply H. right. exact Q. Qed.
Theorem C50_notation l : l <> [] -> (forall s f, In (s, f) l -> is_sign s /\ ~ In "-"%char f /\ ~ In "="%char f) -> sides_of (render l) = l.
Proof.
  assert (Fr : forall s f, ~ In "="%char f -> free "=" (render_side (s, f))).
  { intros s f H. unfold render_side. cbn [fst snd]. assert (Q : free "=" f) by (apply Forall_forall; intros c Hc; apply Ascii.eqb_neq; intros ->; contradiction). destruct (Z.eqb s 1); [exact Q|]. constructor; [reflexivity|exact Q]. }
  assert (Ps : forall s f, is_sign s -> ~ In "-"%char f -> parse_side (render_side (s, f)) = (s, f)).
  { intros s f Hs H. unfold render_side, parse_side. cbn [fst snd]. destruct Hs as [-> | ->]; cbn [Z.eqb Pos.eqb].
    - rewrite filter_id by exact H. f_equal. destruct f as [|c f]; [reflexivity|]. destruct (Ascii.eqb_spec c "-") as [->|_]; [destruct H; left; reflexivity|reflexivity].
    - cbn [filter Ascii.eqb Bool.eqb negb andb]. change (Ascii.eqb "-" "-") with true. cbn [negb]. rewrite filter_id by exact H. reflexivity. }
  intros N H. induction l as [|[s f] l IH]; [congruence|]. destruct (H s f (or_introl eq_refl)) as (Hs & H1 & H2). unfold sides_of in *. destruct l as [|b l].
  - cbn [render]. rewrite split_free by (apply Fr, H2). cbn [map]. rewrite Ps by assumption. reflexivity.
  - change (render ((s, f) :: b :: l)) with (render_side (s, f) ++ "="%char :: render (b :: l)). rewrite split_app by (apply Fr, H2). cbn [map]. rewrite Ps by assumption. f_equal.
    apply IH; [discriminate|]. intros t h Ht. apply H. right. exact Ht.
Qed.

(* ---------- tensors ---------- *)
Definition fixes (dims : shape) (T : idx -> R) (a : signed) : Prop := forall x, valid dims x -> T (permute x (snd a)) = (IZR (fst a) * T x)%R.
Lemma side_equation dim f0 a T : NoDup f0 -> Permutation (snd a) f0 -> map dim (snd a) = map dim f0 ->
  (fixes (map dim f0) T (gen f0 a) <-> forall v, (forall c, In c f0 -> v c < dim c) -> T (map v f0) = (IZR (fst a) * T (map v (snd a)))%R).
Proof.
  intros N P E. split.
  - intros H v Hv. rewrite <- (gen_permute v f0 a P) at 1. apply (H (map v (snd a))). rewrite <- E. apply valid_iff. split; [rewrite !map_length; reflexivity|]. rewrite map_length. intros k Hk.
    rewrite !(nth_mapc _ (snd a) k "a"%char) by exact Hk. apply Hv. apply (Permutation_in _ P), nth_In, Hk.
  - intros H x V. rewrite <- E in V. apply valid_iff in V as [Lx Vx]. rewrite map_length in *. set (v := fun c => nth (cnat c (snd a)) x 0).
    assert (Nd : NoDup (snd a)) by exact (Permutation_NoDup (Permutation_sym P) N).
    assert (Ex : map v (snd a) = x). { apply nth_ext0; rewrite map_length; [lia|]. intros k Hk. rewrite (nth_mapc v (snd a) k "a"%char) by exact Hk. unfold v. rewrite cnat_nth by assumption. reflexivity. }
    rewrite <- Ex at 1 2. change (fst (gen f0 a)) with (fst a). rewrite (gen_permute v f0 a P). apply H. intros c Hc. unfold v.
    destruct (cindex_ok c (snd a) "a"%char (Permutation_in _ (Permutation_sym P) Hc)) as (_ & L & Q). pose proof (Vx _ L) as W. rewrite (nth_mapc dim (snd a) _ "a"%char) in W by exact L. rewrite Q in W. exact W.
Qed.
Lemma fixes_generated dims T S n : length dims = n -> signed_perms n S -> (forall a, In a S -> permute dims (snd a) = dims /\ fixes dims T a) ->
  forall a, sgenerated S a -> is_sign (fst a) /\ is_perm (snd a) = true /\ length (snd a) = n /\ permute dims (snd a) = dims /\ fixes dims T a.
Proof.
  intros Ld HP HS a Ha. induction Ha as [[s p] Ha|s p q Hp IHp Hq|s p t q r Hp IHp Hq IHq Hr]; cbn [fst snd] in *.
  - destruct (HP s p Ha) as (A & B & C). destruct (HS _ Ha) as (D & E). auto.
  - destruct IHp as (A & B & C & D & E). rewrite inverse_Ok in Hq by exact B. injection Hq as <-. assert (Pq := inv_nat_perm p B).
    assert (Dq : permute dims (inv_nat p) = dims). { rewrite <- D at 1. rewrite permute_comp; [|exact Pq|rewrite inv_nat_length; reflexivity]. rewrite comp_nat_inv_r by exact B. apply permute_id. congruence. }
    split; [exact A|]. split; [exact Pq|]. split; [rewrite inv_nat_length; exact C|]. split; [exact Dq|].
    intros x V. cbn [fst snd] in *. assert (Vq : valid dims (permute x (inv_nat p))) by (apply permute_valid; [exact Pq|rewrite inv_nat_length; lia|exact Dq|exact V]).
    pose proof (E _ Vq) as Q. cbn [fst snd] in Q. rewrite permute_comp in Q by (try assumption; rewrite inv_nat_length; reflexivity). rewrite comp_nat_inv_l in Q by exact B. rewrite permute_id in Q by (apply valid_length in V; congruence).
    rewrite Q, <- Rmult_assoc, (IZR_sign_sq s A). ring.
  - destruct IHp as (A & B & C & D & E), IHq as (A' & B' & C' & D' & E'). rewrite compose_Ok in Hr by congruence. injection Hr as <-.
    split; [apply is_sign_mul; assumption|]. split; [apply comp_nat_perm; congruence|]. split; [rewrite comp_nat_length; exact C|].
    assert (forall x, permute x (comp_nat p q) = permute (permute x p) q) as Ec by (intros x; symmetry; apply permute_comp; congruence).
    split; [rewrite Ec, D; exact D'|]. intros x V. cbn [fst snd] in *. rewrite Ec. pose proof (E' _ (permute_valid dims x p B ltac:(congruence) D V)) as Q1. pose proof (E x V) as Q2. cbn [fst snd] in Q1, Q2. rewrite Q1, Q2, mult_IZR. ring.
Qed.
(* a tensor satisfies the equations of the formula exactly when it is invariant under the group *)
Theorem C50_equations_generate dim f0 l g T : arrangements f0 l -> (forall s f, In (s, f) l -> is_sign s) -> same_dims dim f0 l -> (forall a, In a g <-> group_of f0 l a) ->
  (satisfies dim f0 l T <-> forall s p x, In (s, p) g -> valid (map dim f0) x -> T (permute x p) = (IZR s * T x)%R).
Proof.
  intros A Sg D HG. split.
  - intros H s p x Hp V. apply HG in Hp.
    destruct (fixes_generated (map dim f0) T (map (gen f0) l) (length f0) (map_length _ _) (gens_signed f0 l A Sg)) with (a := (s, p)) as (_ & _ & _ & _ & Q); [|exact Hp|exact (Q x V)].
    intros a Ha. apply in_map_iff in Ha as ([t f] & <- & Hf). split.
    + rewrite <- (D t f Hf) at 1. exact (gen_permute dim f0 (t, f) (proj2 A t f Hf)).
    + apply (side_equation dim f0 (t, f) T (proj1 A) (proj2 A t f Hf) (D t f Hf)). intros v Hv. exact (H t f v Hf Hv).
  - intros H s f v Hf. revert v. apply (side_equation dim f0 (s, f) T (proj1 A) (proj2 A s f Hf) (D s f Hf)). intros x V. apply H; [|exact V]. apply HG. apply sgen_in. apply in_map_iff. exists (s, f). split; [|exact Hf]. unfold gen. reflexivity.
Qed.
Lemma group_dims dim f0 l g : arrangements f0 l -> (forall s f, In (s, f) l -> is_sign s) -> same_dims dim f0 l -> (forall a, In a g <-> group_of f0 l a) ->
  forall s p, In (s, p) g -> permute (map dim f0) p = map dim f0.
Proof.
  intros A Sg D HG s p Hp. apply HG in Hp.
  destruct (fixes_generated (map dim f0) (fun _ => 0%R) (map (gen f0) l) (length f0) (map_length _ _) (gens_signed f0 l A Sg)) with (a := (s, p)) as (_ & _ & _ & Q & _); [|exact Hp|exact Q].
  intros a Ha. apply in_map_iff in Ha as ([t f] & <- & Hf). split; [rewrite <- (D t f Hf) at 1; exact (gen_permute dim f0 (t, f) (proj2 A t f Hf))|]. intros x _. ring.
Qed.
(* the whole pipeline: the rows are orthonormal, satisfy the equations, and every tensor which satisfies the equations is their combination *)
Theorem C50_basis_of_formula formula f0 rest dim fuel : sides_of formula = (1%Z, f0) :: rest -> arrangements f0 (sides_of formula) -> same_dims dim f0 (sides_of formula) -> 2 * fact (length f0) < fuel ->
  let dims := map dim f0 in
  exists g base, germinate_perm_repr fuel formula = Some (Ok (f0, g)) /\ reduce_permutation_base g dims = Ok base /\
  let Q := reduce_permutation_matrix base dims in
  (forall r, In r Q -> satisfies dim f0 (sides_of formula) r) /\
  (forall a b, a < length Q -> b < length Q -> lsum (all_idx dims) (fun i => nth a Q (fun _ => 0%R) i * nth b Q (fun _ => 0%R) i)%R = if a =? b then 1%R else 0%R) /\
  (forall T, satisfies dim f0 (sides_of formula) T -> forall i, valid dims i -> T i = lsum Q (fun r => lsum (all_idx dims) (fun j => r j * T j) * r i)%R).
Proof.
  intros E A D Hf dims. destruct (C50_germinate formula 1%Z f0 rest fuel E eq_refl A Hf) as (g & Eg & _ & Gg & HG). pose proof (sides_sign formula) as Sg.
  assert (Ld : length dims = length f0) by apply map_length. assert (Cd := group_dims dim f0 _ g A Sg D HG).
  destruct (reduction_basis (length f0) g dims Gg Ld Cd) as (base & Eb & R1 & R2 & R3). exists g, base. split; [exact Eg|]. split; [exact Eb|]. cbv zeta.
  assert (Inv : forall T, satisfies dim f0 (sides_of formula) T <-> invariant g dims T) by (intros T; exact (C50_equations_generate dim f0 _ g T A Sg D HG)).
  split; [intros r Hr; apply Inv, R1, Hr|]. split; [exact R2|]. intros T HT. apply R3, Inv, HT.
Qed.
(* a formula that forces T = -T is accepted; its basis is empty *)
Theorem C50_contradictory formula f0 rest dim fuel : sides_of formula = (1%Z, f0) :: rest -> arrangements f0 (sides_of formula) -> 2 * fact (length f0) < fuel ->
  group_of f0 (sides_of formula) ((-1)%Z, identity (length f0)) ->
  exists g, germinate_perm_repr fuel formula = Some (Ok (f0, g)) /\ reduce_permutation_base g (map dim f0) = Ok [].
Proof.
  intros E A Hf H. destruct (C50_germinate formula 1%Z f0 rest fuel E eq_refl A Hf) as (g & Eg & _ & Gg & HG). exists g. split; [exact Eg|].
  apply (reduction_contradictory (length f0) g (map dim f0) Gg (map_length _ _)). apply HG, H.
Qed.
