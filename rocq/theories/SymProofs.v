(* Ordered sets, signed permutation groups, orbits of multi-indices and the invariant basis built from them. *)
From Coq Require Import Reals Lra ZArith List Bool Arith Lia Permutation Sorted.
From Verif Require Import PyBase PermModel PermProofs ArrayModel LeadModel LeadProofs StackProofs SumR ScatterProps SymModel.
Import ListNotations.

(* ---------- orders ---------- *)
Definition good {A} (cmp : A -> A -> comparison) : Prop :=
  (forall a b, cmp a b = Eq <-> a = b) /\ (forall a b, cmp b a = CompOpp (cmp a b)) /\ (forall a b c, cmp a b = Lt -> cmp b c = Lt -> cmp a c = Lt).

Lemma good_nat : good Nat.compare.
Proof. split; [exact Nat.compare_eq_iff|split; [exact (fun a b => Nat.compare_antisym a b)|]]. intros a b c. rewrite !Nat.compare_lt_iff. lia. Qed.
Lemma good_Z : good Z.compare.
Proof. split; [exact Z.compare_eq_iff|split; [exact (fun a b => Z.compare_antisym a b)|]]. intros a b c. rewrite !Z.compare_lt_iff. lia. Qed.
Lemma good_lex {A} (cmp : A -> A -> comparison) : good cmp -> good (lex cmp).
Proof.
  intros (G1 & G2 & G3). split; [|split].
  - induction a as [|a x IH]; intros [|b y]; cbn [lex]; split; try congruence.
    + destruct (cmp a b) eqn:E; try discriminate. intros Q. apply IH in Q. apply G1 in E. congruence.
    + intros Q. injection Q as <- <-. rewrite (proj2 (G1 a a) eq_refl). apply IH. reflexivity.
  - induction a as [|a x IH]; intros [|b y]; cbn [lex]; try reflexivity. rewrite (G2 a b). destruct (cmp a b); cbn [CompOpp]; try reflexivity. apply IH.
  - induction a as [|a x IH]; intros [|b y] [|c z]; cbn [lex]; try congruence.
    destruct (cmp a b) eqn:E; try discriminate.
    + apply G1 in E. subst b. destruct (cmp a c) eqn:E'; try discriminate; try reflexivity. apply IH.
    + intros _. destruct (cmp b c) eqn:E'; try discriminate.
      * apply G1 in E'. subst c. rewrite E. reflexivity.
      * intros _. rewrite (G3 _ _ _ E E'). reflexivity.
Qed.
Lemma good_signed : good signed_cmp.
Proof.
  destruct good_Z as (G1 & G2 & G3). destruct (good_lex _ good_nat) as (L1 & L2 & L3). unfold signed_cmp. split; [|split].
  - intros [s x] [t y]. cbn [fst snd]. split.
    + destruct (Z.compare s t) eqn:E; try discriminate. intros Q. apply L1 in Q. apply G1 in E. congruence.
    + intros Q. injection Q as <- <-. rewrite (proj2 (G1 s s) eq_refl). apply L1. reflexivity.
  - intros [s x] [t y]. cbn [fst snd]. rewrite (G2 s t). destruct (Z.compare s t); cbn [CompOpp]; try reflexivity. apply L2.
  - intros [s x] [t y] [u z]. cbn [fst snd]. destruct (Z.compare s t) eqn:E; try discriminate.
    + apply G1 in E. subst t. destruct (Z.compare s u) eqn:E'; try discriminate; try reflexivity. apply L3.
    + intros _. destruct (Z.compare t u) eqn:E'; try discriminate.
      * apply G1 in E'. subst u. rewrite E. reflexivity.
      * intros _. rewrite (G3 _ _ _ E E'). reflexivity.
Qed.

Section osets.
Context {A : Type} (cmp : A -> A -> comparison) (G : good cmp).
Let below a b := cmp a b = Lt.
Lemma oinsert_In a l b : In b (oinsert cmp a l) <-> b = a \/ In b l.
Proof.
  destruct G as (G1 & _ & _). induction l as [|c l IH]; cbn [oinsert In]; [intuition|]. destruct (cmp a c) eqn:E; cbn [In].
  - apply G1 in E. subst c. intuition.
  - intuition.
  - rewrite IH. intuition.
Qed.
Lemma oset_In l b : In b (oset cmp l) <-> In b l.
Proof. induction l as [|a l IH]; [reflexivity|]. cbn [oset fold_right]. rewrite oinsert_In. fold (oset cmp l). rewrite IH. cbn [In]. intuition. Qed.
Lemma oinsert_sorted a l : StronglySorted below l -> StronglySorted below (oinsert cmp a l).
Proof.
  destruct G as (G1 & G2 & G3). induction l as [|c l IH]; intros H; cbn [oinsert]; [repeat constructor|]. inversion H as [|? ? H1 H2]; subst. destruct (cmp a c) eqn:E.
  - exact H.
  - constructor; [exact H|]. constructor; [exact E|]. rewrite Forall_forall in *. intros b Hb. exact (G3 _ _ _ E (H2 b Hb)).
  - constructor; [exact (IH H1)|]. rewrite Forall_forall in *. intros b Hb. apply oinsert_In in Hb as [->|Hb]; [|exact (H2 b Hb)]. unfold below. rewrite G2, E. reflexivity.
Qed.
Lemma oset_sorted l : StronglySorted below (oset cmp l).
Proof. induction l as [|a l IH]; [constructor|]. exact (oinsert_sorted a _ IH). Qed.
Lemma below_irrefl a : ~ below a a.
Proof. destruct G as (G1 & _). unfold below. rewrite (proj2 (G1 a a) eq_refl). discriminate. Qed.
Lemma sorted_nodup l : StronglySorted below l -> NoDup l.
Proof. induction 1 as [|a l H IH F]; constructor; [|exact IH]. intros Hin. rewrite Forall_forall in F. exact (below_irrefl a (F a Hin)). Qed.
Lemma oset_NoDup l : NoDup (oset cmp l).
Proof. apply sorted_nodup, oset_sorted. Qed.
Lemma sorted_unique l1 l2 : StronglySorted below l1 -> StronglySorted below l2 -> (forall x, In x l1 <-> In x l2) -> l1 = l2.
Proof.
  destruct G as (G1 & G2 & G3). intros H1. revert l2. induction H1 as [|a l1 H1 IH Ha]; intros l2 H2 E.
  - destruct l2 as [|b l2]; [reflexivity|]. exfalso. apply (E b). left; reflexivity.
  - destruct H2 as [|b l2 H2 Hb]; [exfalso; apply (E a); left; reflexivity|]. rewrite Forall_forall in *.
    assert (a = b) as <-.
    { destruct (proj1 (E a) (or_introl eq_refl)) as [->|Hin]; [reflexivity|]. destruct (proj2 (E b) (or_introl eq_refl)) as [->|Hin']; [reflexivity|].
      exfalso. apply (below_irrefl a). exact (G3 _ _ _ (Ha b Hin') (Hb a Hin)). }
    f_equal. apply IH; [assumption|]. intros x. split; intros Hx.
    + destruct (proj1 (E x) (or_intror Hx)) as [<-|?]; [|assumption]. destruct (below_irrefl _ (Ha _ Hx)).
    + destruct (proj2 (E x) (or_intror Hx)) as [<-|?]; [|assumption]. destruct (below_irrefl _ (Hb _ Hx)).
Qed.
Lemma oset_ext l l' : (forall x, In x l <-> In x l') -> oset cmp l = oset cmp l'.
Proof. intros H. apply sorted_unique; try apply oset_sorted. intros x. rewrite !oset_In. apply H. Qed.
Lemma oset_eq_In l l' : oset cmp l = oset cmp l' -> forall x, In x l <-> In x l'.
Proof. intros H x. rewrite <- (oset_In l), <- (oset_In l'), H. reflexivity. Qed.
End osets.

(* ---------- signed sets ---------- *)
Lemma signed_eqb_eq a b : signed_eqb a b = true <-> a = b.
Proof. destruct a as [s p], b as [t q]. unfold signed_eqb. cbn [fst snd]. rewrite andb_true_iff, Z.eqb_eq, list_eqb_eq. split; [intros [-> ->]; reflexivity|intros Q; injection Q as -> ->; auto]. Qed.
Lemma smem_In a g : smem a g = true <-> In a g.
Proof. unfold smem. rewrite existsb_exists. split; [intros (b & Hb & E); apply signed_eqb_eq in E; subst; exact Hb|intros H; exists a; split; [exact H|apply signed_eqb_eq; reflexivity]]. Qed.
Lemma sadd_In a g b : In b (sadd a g) <-> b = a \/ In b g.
Proof. unfold sadd. destruct (smem a g) eqn:E; [apply smem_In in E; split; [auto|intros [->|]; auto]|]. rewrite in_app_iff. cbn [In]. intuition. Qed.
Lemma sadd_NoDup a g : NoDup g -> NoDup (sadd a g).
Proof. intros H. unfold sadd. destruct (smem a g) eqn:E; [exact H|]. apply NoDup_app_snoc; [exact H|]. rewrite <- smem_In, E. discriminate. Qed.
Lemma sunion_In g l b : In b (sunion g l) <-> In b g \/ In b l.
Proof. unfold sunion. revert g. induction l as [|a l IH]; intros g; cbn [fold_left In]; [intuition|]. rewrite IH, sadd_In. intuition. Qed.
Lemma sunion_NoDup g l : NoDup g -> NoDup (sunion g l).
Proof. unfold sunion. revert g. induction l as [|a l IH]; intros g H; [exact H|]. cbn [fold_left]. apply IH, sadd_NoDup, H. Qed.

(* ---------- signed groups ---------- *)
Definition is_sign (s : Z) : Prop := s = 1%Z \/ s = (-1)%Z.
Definition signed_perms (n : nat) (g : list signed) : Prop := forall s p, In (s, p) g -> is_sign s /\ is_perm p = true /\ length p = n.
(* closed under the neutral element, inverses and products *)
Definition signed_group (n : nat) (g : list signed) : Prop :=
  signed_perms n g /\ In (1%Z, identity n) g /\
  (forall s p q, In (s, p) g -> inverse p = Ok q -> In (s, q) g) /\
  (forall s p t q r, In (s, p) g -> In (t, q) g -> compose p q = Ok r -> In ((s * t)%Z, r) g).

(* the set generated by signed permutations *)
Inductive sgenerated (S : list signed) : signed -> Prop :=
| sgen_in a : In a S -> sgenerated S a
| sgen_inv s p q : sgenerated S (s, p) -> inverse p = Ok q -> sgenerated S (s, q)
| sgen_comp s p t q r : sgenerated S (s, p) -> sgenerated S (t, q) -> compose p q = Ok r -> sgenerated S ((s * t)%Z, r).

Lemma is_sign_mul s t : is_sign s -> is_sign t -> is_sign (s * t).
Proof. intros [-> | ->] [-> | ->]; unfold is_sign; auto. Qed.
Lemma is_sign_sq s : is_sign s -> (s * s = 1)%Z.
Proof. intros [-> | ->]; reflexivity. Qed.

Lemma sgerminate_step_ok n g : signed_perms n g -> NoDup g ->
  exists g', sgerminate_step g = Ok g' /\ NoDup g' /\ signed_perms n g' /\ incl g g' /\
    (forall S, (forall a, In a g -> sgenerated S a) -> forall a, In a g' -> sgenerated S a) /\
    (forall s p q, In (s, p) g -> inverse p = Ok q -> In (s, q) g') /\
    (forall s p t q r, In (s, p) g -> In (t, q) g -> compose p q = Ok r -> In ((s * t)%Z, r) g').
Proof.
  intros Hg Hnd. unfold sgerminate_step.
  rewrite (mapM_Ok _ (fun '(s, p) => (s, inv_nat p))) by (intros [s p] H; rewrite inverse_Ok by apply (Hg s p H); reflexivity). cbn [bind].
  set (g1 := sunion g (map (fun '(s, p) => (s, inv_nat p)) g)).
  assert (H1 : signed_perms n g1).
  { intros s p Hp. apply sunion_In in Hp as [Hp|Hp]; [exact (Hg s p Hp)|]. apply in_map_iff in Hp as ([t q] & E & Hq). injection E as <- <-. destruct (Hg t q Hq) as (? & ? & ?). split; [assumption|split; [apply inv_nat_perm; assumption|rewrite inv_nat_length; assumption]]. }
  assert (Hc : forall a, In a (list_prod g1 g1) -> (fun '((s1, p1), (s2, p2)) => let! q := compose p1 p2 in Ok ((s1 * s2)%Z, q)) a = Ok ((fun '((s1, p1), (s2, p2)) => ((s1 * s2)%Z, comp_nat p1 p2)) a)).
  { intros [[s p] [t q]] H. apply in_prod_iff in H as [Hp Hq]. destruct (H1 s p Hp) as (? & ? & ?), (H1 t q Hq) as (? & ? & ?). rewrite compose_Ok by congruence. reflexivity. }
  rewrite (mapM_Ok _ _ _ Hc). cbn [bind]. eexists. split; [reflexivity|].
  split; [apply sunion_NoDup, sunion_NoDup, Hnd|]. split.
  { intros s p H. apply sunion_In in H as [H|H]; [exact (H1 s p H)|]. apply in_map_iff in H as ([[t q] [u r]] & E & H). injection E as <- <-. apply in_prod_iff in H as [Hq Hr].
    destruct (H1 t q Hq) as (? & ? & ?), (H1 u r Hr) as (? & ? & ?). split; [apply is_sign_mul; assumption|]. split; [apply comp_nat_perm; congruence|]. rewrite comp_nat_length. assumption. }
  split; [intros a Ha; apply sunion_In; left; apply sunion_In; left; exact Ha|]. split.
  { intros S HS. assert (HS1 : forall a, In a g1 -> sgenerated S a).
    { intros a Ha. apply sunion_In in Ha as [Ha|Ha]; [exact (HS a Ha)|]. apply in_map_iff in Ha as ([t q] & <- & Hq). apply (sgen_inv S t q); [exact (HS _ Hq)|]. apply inverse_Ok. apply (Hg t q Hq). }
    intros a Ha. apply sunion_In in Ha as [Ha|Ha]; [exact (HS1 a Ha)|]. apply in_map_iff in Ha as ([[t q] [u r]] & <- & H). apply in_prod_iff in H as [Hq Hr].
    apply (sgen_comp S t q u r); [exact (HS1 _ Hq)|exact (HS1 _ Hr)|]. destruct (H1 t q Hq) as (? & ? & ?), (H1 u r Hr) as (? & ? & ?). apply compose_Ok; congruence. }
  split.
  { intros s p q Hp Hq. apply sunion_In. left. apply sunion_In. right. rewrite inverse_Ok in Hq by apply (Hg s p Hp). injection Hq as <-. apply in_map_iff. exists (s, p). split; [reflexivity|exact Hp]. }
  intros s p t q r Hp Hq Hr. apply sunion_In. right. apply in_map_iff. exists ((s, p), (t, q)). split; [|apply in_prod; apply sunion_In; left; assumption].
  destruct (Hg s p Hp) as (? & ? & ?), (Hg t q Hq) as (? & ? & ?). rewrite compose_Ok in Hr by congruence. injection Hr as <-. reflexivity.
Qed.

Lemma sgerminate_ok n S : signed_perms n S -> NoDup S -> forall fuel, 2 * fact n < fuel + length S ->
  exists G, sgerminate_loop fuel S = Some (Ok G) /\ NoDup G /\ signed_perms n G /\ (forall a, In a G <-> sgenerated S a).
Proof.
  intros HS Hnd.
  enough (Gen : forall fuel g, signed_perms n g -> NoDup g -> incl S g -> (forall a, In a g -> sgenerated S a) -> 2 * fact n < fuel + length g ->
     exists G, sgerminate_loop fuel g = Some (Ok G) /\ NoDup G /\ signed_perms n G /\ (forall a, In a G <-> sgenerated S a)).
  { intros fuel Hf. apply (Gen fuel S); auto; [intros a; auto|]. intros a Ha. apply sgen_in, Ha. }
  induction fuel as [|fuel IH]; intros g Hg Hnd' Hincl Hgen Hf.
  - exfalso. destruct (group_ok n) as (G & _ & HG & Hlen & HGin).
    assert (length g <= length (list_prod [1%Z; (-1)%Z] G)); [|rewrite prod_length in *; cbn [length] in *; lia]. apply NoDup_incl_length; [assumption|].
    intros [s p] Hp. destruct (Hg s p Hp) as (Hs & Hp' & El). apply in_prod; [destruct Hs as [-> | ->]; cbn; auto|]. apply HGin. split; assumption.
  - cbn [sgerminate_loop]. destruct (sgerminate_step_ok n g Hg Hnd') as (g' & -> & Hnd'' & Hg' & Hi & Hsound & Hcinv & Hccomp).
    destruct (Nat.eqb_spec (length g') (length g)) as [E|E].
    + exists g'. split; [reflexivity|]. split; [assumption|]. split; [assumption|].
      assert (Hback : incl g' g) by (apply NoDup_length_incl; [assumption|lia|assumption]).
      intros a. split; [apply Hsound; assumption|].
      intros Ha. induction Ha as [a Ha|s p q Hp IHp Hq|s p t q r Hp IHp Hq IHq Hr].
      * apply Hi, Hincl, Ha.
      * eapply Hcinv; [|exact Hq]. apply Hback. assumption.
      * eapply Hccomp; [| |exact Hr]; apply Hback; assumption.
    + apply IH; auto.
      * intros a Ha. apply Hi, Hincl, Ha.
      * assert (length g <= length g') by (apply NoDup_incl_length; assumption). lia.
Qed.

(* ---------- acting on multi-indices ---------- *)
Definition permute (x : idx) (p : list nat) : idx := map (fun i => nth i x 0) p.
Lemma permute_length x p : length (permute x p) = length p.
Proof. apply map_length. Qed.
Lemma permute_nth x p k : k < length p -> nth k (permute x p) 0 = nth (nth k p 0) x 0.
Proof. intros H. unfold permute. rewrite (nth_indep _ 0 ((fun i => nth i x 0) 0)) by (rewrite map_length; exact H). exact (map_nth (fun i => nth i x 0) p 0 k). Qed.
Lemma permute_comp x p q : is_perm q = true -> length p = length q -> permute (permute x p) q = permute x (comp_nat p q).
Proof.
  intros Hq E. apply nth_ext0; [rewrite !permute_length, comp_nat_length; lia|]. rewrite permute_length. intros k Hk.
  assert (nth k q 0 < length q) by (apply perm_nth_lt; assumption).
  rewrite !permute_nth, comp_nat_nth by (rewrite ?comp_nat_length; lia). reflexivity.
Qed.
Lemma permute_id x n : length x = n -> permute x (identity n) = x.
Proof. intros E. apply nth_ext0; [rewrite permute_length; unfold identity; rewrite seq_length; lia|]. rewrite permute_length. unfold identity. rewrite seq_length. intros k Hk. rewrite permute_nth by (rewrite seq_length; exact Hk). rewrite seq_nth by exact Hk. reflexivity. Qed.
Lemma valid_iff s x : valid s x <-> length x = length s /\ forall k, k < length s -> nth k x 0 < nth k s 0.
Proof.
  split.
  - induction 1 as [|a b x s H F [IH1 IH2]]; [split; [reflexivity|cbn; lia]|]. split; [cbn; lia|]. intros [|k] Hk; cbn in *; [exact H|apply IH2; lia].
  - revert s. induction x as [|a x IH]; intros [|b s] [E H]; try discriminate; [constructor|]. constructor; [exact (H 0 ltac:(cbn; lia))|]. apply IH. cbn in E. split; [lia|]. intros k Hk. exact (H (S k) ltac:(cbn; lia)).
Qed.
Lemma permute_valid dims x p : is_perm p = true -> length p = length dims -> permute dims p = dims -> valid dims x -> valid dims (permute x p).
Proof.
  intros Hp L E V. apply valid_iff in V as [Lx V]. apply valid_iff. split; [rewrite permute_length; exact L|]. intros k Hk.
  rewrite permute_nth by lia. assert (Hlt : nth k p 0 < length p) by (apply perm_nth_lt; [assumption|lia]).
  replace (nth k dims 0) with (nth (nth k p 0) dims 0); [apply V; lia|]. rewrite <- permute_nth by lia. rewrite E. reflexivity.
Qed.

Section reduction.
Variables (n : nat) (g : list signed) (dims : shape).
Hypothesis Gg : signed_group n g.
Hypothesis Ld : length dims = n.
Hypothesis Cd : forall s p, In (s, p) g -> permute dims p = dims.

Definition orb (x : idx) : list signed := oset signed_cmp (map (fun '(s, p) => (s, permute x p)) g).
Lemma orbit_Ok x : length x = n -> orbit g x = Ok (orb x).
Proof.
  clear Cd Ld. destruct Gg as (Hp & _). intros L. unfold orbit, orb.
  rewrite (mapM_Ok _ (fun '(s, p) => (s, permute x p))); [reflexivity|]. intros [s p] H. destruct (Hp s p H) as (_ & P & E).
  rewrite (mapM_Ok _ (fun i => nth i x 0)); [reflexivity|]. intros i Hi. apply getitem_Ok. apply (proj1 (perm_In p i P)) in Hi. lia.
Qed.
Lemma orb_In x s y : In (s, y) (orb x) <-> exists p, In (s, p) g /\ y = permute x p.
Proof.
  unfold orb. rewrite (oset_In _ good_signed), in_map_iff. split.
  - intros ([t p] & E & H). injection E as <- <-. exists p. split; [exact H|reflexivity].
  - intros (p & H & ->). exists (s, p). split; [reflexivity|exact H].
Qed.
Lemma orb_self x : length x = n -> In (1%Z, x) (orb x).
Proof. destruct Gg as (_ & H & _). intros L. apply orb_In. exists (identity n). split; [exact H|]. rewrite permute_id by exact L. reflexivity. Qed.
Lemma orb_sign x s y : In (s, y) (orb x) -> is_sign s /\ length y = n.
Proof. destruct Gg as (Hp & _). intros H. apply orb_In in H as (p & H & ->). destruct (Hp s p H) as (? & _ & L). split; [assumption|rewrite permute_length; exact L]. Qed.
Lemma orb_valid x s y : valid dims x -> In (s, y) (orb x) -> valid dims y.
Proof. destruct Gg as (Hp & _). intros V H. apply orb_In in H as (p & H & ->). destruct (Hp s p H) as (_ & P & L). apply permute_valid; [exact P|lia|exact (Cd s p H)|exact V]. Qed.
Lemma orb_trans x t y u z : In (t, y) (orb x) -> In (u, z) (orb y) -> In ((t * u)%Z, z) (orb x).
Proof.
  destruct Gg as (Hp & _ & _ & Hc). rewrite !orb_In. intros (p & H & ->) (q & H' & ->). destruct (Hp t p H) as (_ & P & L), (Hp u q H') as (_ & Q & L').
  exists (comp_nat p q). split; [apply (Hc t p u q); [exact H|exact H'|apply compose_Ok; congruence]|]. apply permute_comp; congruence.
Qed.
Lemma orb_sym x t y : length x = n -> In (t, y) (orb x) -> In (t, x) (orb y).
Proof.
  destruct Gg as (Hp & _ & Hi & _). intros Lx. rewrite !orb_In. intros (p & H & ->). destruct (Hp t p H) as (_ & P & L).
  exists (inv_nat p). split; [apply (Hi t p); [exact H|apply inverse_Ok, P]|]. rewrite permute_comp; [|apply inv_nat_perm, P|rewrite inv_nat_length; reflexivity].
  rewrite comp_nat_inv_r by exact P. rewrite L, permute_id by exact Lx. reflexivity.
Qed.
Lemma orb_move x t y u z : length x = n -> In (t, y) (orb x) -> (In (u, z) (orb y) <-> In ((t * u)%Z, z) (orb x)).
Proof.
  intros Lx H. split; [apply orb_trans, H|]. intros H'. pose proof (orb_trans _ _ _ _ _ (orb_sym _ _ _ Lx H) H') as Q.
  destruct (orb_sign _ _ _ H) as (St & _). rewrite Z.mul_assoc, (is_sign_sq t St), Z.mul_1_l in Q. exact Q.
Qed.
(* a vanishing coefficient *)
Definition vanishing (x : idx) : Prop := In ((-1)%Z, x) (orb x).
Lemma vanishing_move x t y : length x = n -> In (t, y) (orb x) -> vanishing x -> vanishing y.
Proof.
  intros Lx H W. unfold vanishing. apply (orb_move x t y) ; [exact Lx|exact H|]. rewrite (Z.mul_comm t).
  exact (orb_trans _ _ _ _ _ W H).
Qed.
Lemma orb_unique x s t y : length x = n -> ~ vanishing x -> In (s, y) (orb x) -> In (t, y) (orb x) -> s = t.
Proof.
  intros Lx W H H'. destruct (orb_sign _ _ _ H) as (S1 & _), (orb_sign _ _ _ H') as (S2 & _).
  pose proof (orb_trans _ _ _ _ _ H (orb_sym _ _ _ Lx H')) as Q. destruct S1 as [-> | ->], S2 as [-> | ->]; try reflexivity; destruct (W Q).
Qed.
(* orbits up to a global sign *)
Definition signs (t : Z) (xs : list signed) : list signed := oset signed_cmp (map (fun '(s, x) => ((t * s)%Z, x)) xs).
Lemma signs_In t xs s x : is_sign t -> In (s, x) (signs t xs) <-> In ((t * s)%Z, x) xs.
Proof.
  intros St. unfold signs. rewrite (oset_In _ good_signed), in_map_iff. split.
  - intros ([u y] & E & H). injection E as <- <-. rewrite Z.mul_assoc, is_sign_sq, Z.mul_1_l by exact St. exact H.
  - intros H. exists ((t * s)%Z, x). split; [|exact H]. rewrite Z.mul_assoc, is_sign_sq, Z.mul_1_l by exact St. reflexivity.
Qed.
Lemma negated_signs xs : negated xs = signs (-1) xs.
Proof. reflexivity. Qed.
Lemma orb_of x t y : length x = n -> In (t, y) (orb x) -> orb y = signs t (orb x).
Proof.
  intros Lx H. apply (sorted_unique _ good_signed); try apply (oset_sorted _ good_signed). intros [u z]. rewrite signs_In by apply (orb_sign _ _ _ H). exact (orb_move x t y u z Lx H).
Qed.
Lemma signs_sorted_one x : signs 1 (orb x) = orb x.
Proof. apply (sorted_unique _ good_signed); try apply (oset_sorted _ good_signed). intros [u z]. rewrite signs_In by (left; reflexivity). rewrite Z.mul_1_l. reflexivity. Qed.
Lemma signs_signs t u x : is_sign t -> is_sign u -> signs t (signs u (orb x)) = signs (t * u) (orb x).
Proof.
  intros St Su. apply (sorted_unique _ good_signed); try apply (oset_sorted _ good_signed). intros [v z]. rewrite !signs_In by (try assumption; apply is_sign_mul; assumption).
  replace (u * (t * v))%Z with (t * u * v)%Z by ring. reflexivity.
Qed.
Lemma class_same x t y : length x = n -> In (t, y) (orb x) -> class_of (orb y) = class_of (orb x).
Proof.
  intros Lx H. destruct (orb_sign _ _ _ H) as (St & _). unfold class_of. apply (oset_ext _ (good_lex _ good_signed)). intros xs. rewrite (orb_of x t y Lx H), !negated_signs, signs_signs by (auto; right; reflexivity). cbn [In].
  destruct St as [-> | ->]; [rewrite signs_sorted_one; change (-1 * 1)%Z with (-1)%Z; reflexivity|]. change (-1 * -1)%Z with 1%Z. rewrite signs_sorted_one. tauto.
Qed.
Lemma class_eq x y : length x = n -> length y = n -> class_of (orb x) = class_of (orb y) -> exists t, In (t, x) (orb y).
Proof.
  intros Lx Ly E. unfold class_of in E. pose proof (proj1 (oset_eq_In _ (good_lex _ good_signed) _ _ E (orb x)) (or_introl eq_refl)) as [H|[H|[]]].
  - exists 1%Z. rewrite H. apply orb_self, Lx.
  - rewrite negated_signs in H. exists (-1)%Z. pose proof (orb_self x Lx) as Q. rewrite <- H in Q. apply signs_In in Q; [exact Q|right; reflexivity].
Qed.
Lemma fold_pick l : forall a, let r := fold_left (fun best b => if Z.ltb (sign_sum best) (sign_sum b) then b else best) l a in r = a \/ In r l.
Proof. induction l as [|b l IH]; intros a; [left; reflexivity|]. cbn [fold_left]. destruct (IH (if Z.ltb (sign_sum a) (sign_sum b) then b else a)) as [E|H]; [|right; right; exact H]. cbv zeta. rewrite E. destruct (Z.ltb _ _); [right; left; reflexivity|left; reflexivity]. Qed.
Lemma pick_In b : b <> [] -> In (pick b) b.
Proof. destruct b as [|a r]; [congruence|]. intros _. unfold pick. destruct (fold_pick r a) as [->|H]; [left; reflexivity|right; exact H]. Qed.
Lemma pick_class x : exists t, is_sign t /\ pick (class_of (orb x)) = signs t (orb x).
Proof.
  assert (H : In (pick (class_of (orb x))) (class_of (orb x))).
  { apply pick_In. intros E. assert (Q : In (orb x) (class_of (orb x))) by (apply (oset_In _ (good_lex _ good_signed)); left; reflexivity). rewrite E in Q. destruct Q. }
  apply (oset_In _ (good_lex _ good_signed)) in H as [H|[H|[]]]; [exists 1%Z; split; [left; reflexivity|rewrite <- H; symmetry; apply signs_sorted_one]|].
  exists (-1)%Z. split; [right; reflexivity|]. rewrite <- H. apply negated_signs.
Qed.
(* the base *)
Lemma base_Ok : exists base, reduce_permutation_base g dims = Ok base /\ NoDup base /\
  (forall b, In b base <-> exists x, valid dims x /\ ~ vanishing x /\ b = class_of (orb x)).
Proof.
  clear Cd. unfold reduce_permutation_base.
  rewrite (mapM_Ok _ (fun x => if smem ((-1)%Z, x) (orb x) then [] else [class_of (orb x)])) by (intros x H; apply all_idx_valid in H; apply valid_length in H; rewrite orbit_Ok by congruence; reflexivity).
  cbn [bind]. eexists. split; [reflexivity|]. split; [apply (oset_NoDup _ (good_lex _ (good_lex _ good_signed)))|].
  intros b. rewrite (oset_In _ (good_lex _ (good_lex _ good_signed))). rewrite in_concat. split.
  - intros (l & H & Hb). apply in_map_iff in H as (x & <- & Hx). apply all_idx_valid in Hx. exists x. split; [exact Hx|]. unfold vanishing. destruct (smem _ _) eqn:E; [destruct Hb|]. destruct Hb as [<-|[]]. split; [|reflexivity]. rewrite <- smem_In, E. discriminate.
  - intros (x & V & W & ->). exists [class_of (orb x)]. split; [|left; reflexivity]. apply in_map_iff. exists x. split; [|apply all_idx_valid, V]. destruct (smem _ _) eqn:E; [apply smem_In in E; destruct (W E)|reflexivity].
Qed.
End reduction.
