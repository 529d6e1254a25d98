(* The rows of reduce_permutation_matrix: an orthonormal basis of the invariant tensors. *)
From Coq Require Import Reals Lra ZArith List Bool Arith Lia Permutation Sorted.
From Verif Require Import PyBase PermModel PermProofs ArrayModel LeadModel LeadProofs StackProofs SumR ScatterProps SymModel SymProofs.
Import ListNotations.

Lemma flat_index_ravel dims : forall e j, valid dims e -> fold_left (fun j '(k, d) => j * d + k) (combine e dims) j = j * LeadModel.prod dims + ravel dims e.
Proof.
  induction dims as [|d dims IH]; intros e j V; inversion V as [|k d' e' ? Hk V' E1 E2]; subst; [cbn; lia|].
  cbn [combine fold_left ravel]. rewrite IH by exact V'. change (LeadModel.prod (d :: dims)) with (d * LeadModel.prod dims). nia.
Qed.
Lemma row_out (F : idx -> nat) (c : Z -> R) l : forall row j, (forall s e, In (s, e) l -> F e <> j) ->
  fold_left (fun row '(s, e) => fun j => if j =? F e then c s else row j) l row j = row j.
Proof.
  induction l as [|[s e] l IH]; intros row j H; [reflexivity|]. cbn [fold_left]. rewrite IH by (intros t f Hf; exact (H t f (or_intror Hf))).
  destruct (Nat.eqb_spec j (F e)) as [E|_]; [destruct (H s e (or_introl eq_refl)); auto|reflexivity].
Qed.
Lemma row_in (F : idx -> nat) (c : Z -> R) l : forall row s y, NoDup (map snd l) -> In (s, y) l -> (forall t e, In (t, e) l -> F e = F y -> e = y) ->
  fold_left (fun row '(s, e) => fun j => if j =? F e then c s else row j) l row (F y) = c s.
Proof.
  induction l as [|[t e] l IH]; intros row s y N H I; [destruct H|]. cbn [map snd] in N. apply NoDup_cons_iff in N as [N1 N2]. cbn [fold_left]. destruct H as [H|H].
  - injection H as -> ->. rewrite row_out; [rewrite Nat.eqb_refl; reflexivity|]. intros t e He E. apply (I t) in E; [|right; exact He]. subst e. apply N1. apply in_map_iff. exists (t, y). split; [reflexivity|exact He].
  - apply IH; [exact N2|exact H|]. intros u f Hf. apply (I u). right. exact Hf.
Qed.
Lemma lsum_support {A} (l k : list A) f : NoDup l -> NoDup k -> incl k l -> (forall a, In a l -> ~ In a k -> f a = 0%R) -> lsum l f = lsum k f.
Proof.
  revert l. induction k as [|a k IH]; intros l Nl Nk I Z.
  - apply lsum_zero. intros a Ha. apply Z; [exact Ha|intros []].
  - apply NoDup_cons_iff in Nk as [Na Nk]. destruct (in_split a l (I a (or_introl eq_refl))) as (l1 & l2 & ->).
    assert (Nl' : NoDup (l1 ++ l2)) by exact (NoDup_remove_1 _ _ _ Nl). assert (Ha : ~ In a (l1 ++ l2)) by exact (NoDup_remove_2 _ _ _ Nl).
    rewrite lsum_app, !lsum_cons. rewrite <- (IH (l1 ++ l2) Nl' Nk).
    + rewrite lsum_app. ring.
    + intros b Hb. pose proof (I b (or_intror Hb)) as H. apply in_app_iff in H. apply in_app_iff. destruct H as [H|[->|H]]; [left; exact H|contradiction|right; exact H].
    + intros b Hb Hk. apply Z; [apply in_app_iff; apply in_app_iff in Hb; cbn; tauto|]. intros [->|H]; contradiction.
Qed.
Lemma lsum_const {A} (l : list A) c : lsum l (fun _ => c) = (INR (length l) * c)%R.
Proof. induction l as [|a l IH]; [cbn; ring|]. rewrite lsum_cons, IH. cbn [length]. rewrite S_INR. ring. Qed.

Section reduction.
Variables (n : nat) (g : list signed) (dims : shape).
Hypothesis Gg : signed_group n g.
Hypothesis Ld : length dims = n.
Hypothesis Cd : forall s p, In (s, p) g -> permute dims p = dims.
Notation orb := (orb g).
Notation vanishing := (vanishing g).

(* T (x permuted by p) = s * T x for every element (s, p) *)
Definition invariant (T : idx -> R) : Prop := forall s p x, In (s, p) g -> valid dims x -> T (permute x p) = (IZR s * T x)%R.

Definition rowf (b : list (list signed)) : idx -> R := fun i => matrix_row dims (pick b) (ravel dims i).

Lemma len_of x : valid dims x -> length x = n.
Proof. clear Cd. intros V. apply valid_length in V. congruence. Qed.

(* everything about one row *)
Lemma signs_length t x : is_sign t -> length (signs t (orb x)) = length (orb x).
Proof.
  intros St. assert (N1 : NoDup (signs t (orb x))) by apply (oset_NoDup _ good_signed). assert (N2 : NoDup (orb x)) by apply (oset_NoDup _ good_signed).
  rewrite <- (map_length (fun '(s, y) => ((t * s)%Z, y)) (orb x)). apply Permutation_length, NoDup_Permutation; [exact N1| |].
  - apply FinFun.Injective_map_NoDup; [|exact N2]. intros [a p] [b q] Q. injection Q as Q1 Q2. subst q. f_equal. destruct St as [-> | ->]; lia.
  - intros a. unfold signs. apply (oset_In _ good_signed).
Qed.
Lemma nodup_snd (l : list signed) : NoDup l -> (forall s t y, In (s, y) l -> In (t, y) l -> s = t) -> NoDup (map snd l).
Proof.
  induction l as [|[s y] l IH]; intros N U; [constructor|]. apply NoDup_cons_iff in N as [N1 N2]. cbn [map snd]. constructor.
  - intros H. apply in_map_iff in H as ([t z] & E & H). cbn in E. subst z. rewrite (U s t y) in N1; [contradiction|left; reflexivity|right; exact H].
  - apply IH; [exact N2|]. intros a b z Ha Hb. apply (U a b z); right; assumption.
Qed.
Lemma orb_nodup x : valid dims x -> ~ vanishing x -> NoDup (map snd (orb x)).
Proof. intros V W. apply nodup_snd; [apply (oset_NoDup _ good_signed)|]. intros s t y. exact (orb_unique n g Gg x s t y (len_of x V) W). Qed.

Lemma row_spec x : valid dims x -> ~ vanishing x -> exists t : Z, is_sign t /\
  (forall s y, In (s, y) (orb x) -> rowf (class_of (orb x)) y = (IZR (t * s) / sqrt (INR (length (orb x))))%R) /\
  (forall y, valid dims y -> (forall s, ~ In (s, y) (orb x)) -> rowf (class_of (orb x)) y = 0%R).
Proof.
  intros V W. destruct (pick_class g x) as (t & St & E). exists t. split; [exact St|].
  assert (Hv : forall s y, In (s, y) (signs t (orb x)) -> valid dims y) by (intros s y H; apply signs_In in H; [|exact St]; exact (orb_valid n g dims Gg Ld Cd x _ y V H)).
  assert (Fv : forall y, valid dims y -> flat_index dims y = ravel dims y) by (intros y Vy; unfold flat_index; rewrite flat_index_ravel by exact Vy; reflexivity).
  assert (Inj : forall y z, valid dims y -> valid dims z -> ravel dims y = ravel dims z -> y = z) by (intros y z Vy Vz Q; rewrite <- (unravel_ravel dims y Vy), <- (unravel_ravel dims z Vz), Q; reflexivity).
  unfold rowf. rewrite E. unfold matrix_row. rewrite signs_length by exact St. split.
  - intros s y H. assert (Vy : valid dims y) by exact (orb_valid n g dims Gg Ld Cd x _ y V H). rewrite <- (Fv y Vy).
    assert (H' : In ((t * s)%Z, y) (signs t (orb x))) by (apply signs_In; [exact St|]; rewrite Z.mul_assoc, is_sign_sq, Z.mul_1_l by exact St; exact H).
    rewrite (row_in (flat_index dims) (fun s => IZR s / sqrt (INR (length (orb x))))%R _ _ (t * s)%Z y); [reflexivity| |exact H'|].
    + apply nodup_snd; [apply (oset_NoDup _ good_signed)|]. intros a b z Ha Hb. apply signs_In in Ha, Hb; try exact St. pose proof (orb_unique n g Gg x _ _ z (len_of x V) W Ha Hb) as Q. destruct St as [-> | ->]; lia.
    + intros u z Hz Q. apply Inj; [exact (Hv u z Hz)|exact Vy|]. rewrite <- !Fv; [exact Q|exact Vy|exact (Hv u z Hz)].
  - intros y Vy H. apply (row_out (flat_index dims) (fun s => IZR s / sqrt (INR (length (orb x))))%R). intros s z Hz Q. rewrite Fv in Q by exact (Hv s z Hz). apply (Inj z y) in Q; [|exact (Hv s z Hz)|exact Vy]. subst z.
    apply signs_In in Hz; [|exact St]. exact (H _ Hz).
Qed.
Lemma orb_pos x : valid dims x -> (0 < INR (length (orb x)))%R.
Proof. intros V. apply lt_0_INR. pose proof (orb_self n g Gg x (len_of x V)) as H. destruct (orb x); [destruct H|cbn; lia]. Qed.
Lemma orb_dec x y : (exists s, In (s, y) (orb x)) \/ (forall s, ~ In (s, y) (orb x)).
Proof.
  destruct (in_dec (list_eq_dec Nat.eq_dec) y (map snd (orb x))) as [H|H].
  - left. apply in_map_iff in H as ([s z] & E & H). cbn in E. subst z. exists s. exact H.
  - right. intros s Hs. apply H. apply in_map_iff. exists (s, y). split; [reflexivity|exact Hs].
Qed.
(* sums against a row *)
Lemma row_sum x f : valid dims x -> ~ vanishing x -> (forall y, valid dims y -> (forall s, ~ In (s, y) (orb x)) -> f y = 0%R) ->
  lsum (all_idx dims) f = lsum (orb x) (fun e => f (snd e)).
Proof.
  intros V W Z. rewrite <- (lsum_map snd). apply lsum_support; [apply all_idx_nodup|apply orb_nodup; assumption| |].
  - intros y H. apply in_map_iff in H as ([s z] & E & H). cbn in E. subst z. apply all_idx_valid. exact (orb_valid n g dims Gg Ld Cd x s y V H).
  - intros y Hy H. apply Z; [apply all_idx_valid, Hy|]. intros s Hs. apply H, in_map_iff. exists (s, y). split; [reflexivity|exact Hs].
Qed.
Lemma IZR_sign_sq s : is_sign s -> (IZR s * IZR s = 1)%R.
Proof. intros [-> | ->]; ring. Qed.
Lemma row_norm x : valid dims x -> ~ vanishing x -> lsum (all_idx dims) (fun y => (rowf (class_of (orb x)) y * rowf (class_of (orb x)) y)%R) = 1%R.
Proof.
  intros V W. destruct (row_spec x V W) as (t & St & R1 & R2). rewrite (row_sum x) by (try assumption; intros y Vy H; rewrite R2 by assumption; ring).
  assert (P := orb_pos x V). rewrite (lsum_ext _ _ (fun _ => (/ INR (length (orb x)))%R)).
  - rewrite lsum_const. field. lra.
  - intros [s y] H. cbn [snd]. rewrite (R1 s y H). destruct (orb_sign n g Gg x s y H) as (Ss & _). pose proof (IZR_sign_sq _ (is_sign_mul _ _ St Ss)) as Q.
    unfold Rdiv. replace (IZR (t * s) * / sqrt (INR (length (orb x))) * (IZR (t * s) * / sqrt (INR (length (orb x)))))%R with ((IZR (t * s) * IZR (t * s)) * / (sqrt (INR (length (orb x))) * sqrt (INR (length (orb x)))))%R by (rewrite Rinv_mult; ring).
    rewrite Q, sqrt_sqrt by lra. ring.
Qed.
Lemma row_disjoint x y z : valid dims x -> ~ vanishing x -> valid dims y -> ~ vanishing y -> valid dims z -> class_of (orb x) <> class_of (orb y) ->
  (rowf (class_of (orb x)) z * rowf (class_of (orb y)) z = 0)%R.
Proof.
  intros Vx Wx Vy Wy Vz N. destruct (row_spec x Vx Wx) as (_ & _ & _ & Rx), (row_spec y Vy Wy) as (_ & _ & _ & Ry).
  destruct (orb_dec x z) as [(s & Hs)|H]; [|rewrite Rx by assumption; ring]. destruct (orb_dec y z) as [(t & Ht)|H]; [|rewrite (Ry z) by assumption; ring].
  exfalso. apply N. rewrite <- (class_same n g Gg x s z (len_of x Vx) Hs), <- (class_same n g Gg y t z (len_of y Vy) Ht). reflexivity.
Qed.
Lemma row_invariant x : valid dims x -> ~ vanishing x -> invariant (rowf (class_of (orb x))).
Proof.
  intros V W s p y Hp Vy. destruct (row_spec x V W) as (t & St & R1 & R2).
  assert (Q : In (s, permute y p) (orb y)) by (apply orb_In; exists p; split; [exact Hp|reflexivity]). assert (Vp : valid dims (permute y p)) by exact (orb_valid n g dims Gg Ld Cd y s _ Vy Q).
  destruct (orb_dec x y) as [(u & Hu)|H].
  - rewrite (R1 u y Hu), (R1 (u * s)%Z _ (orb_trans n g Gg x u y s _ Hu Q)). rewrite !mult_IZR. unfold Rdiv. ring.
  - rewrite (R2 y Vy H), R2; [ring|exact Vp|]. intros u Hu. pose proof (orb_trans n g Gg x u _ s y Hu (orb_sym n g Gg y s _ (len_of y Vy) Q)) as Q'. exact (H _ Q').
Qed.
Lemma invariant_orb T x s y : invariant T -> valid dims x -> In (s, y) (orb x) -> T y = (IZR s * T x)%R.
Proof. intros I V H. apply orb_In in H as (p & H & ->). exact (I s p x H V). Qed.
Lemma row_coeff T x : invariant T -> valid dims x -> ~ vanishing x ->
  (lsum (all_idx dims) (fun y => rowf (class_of (orb x)) y * T y) * rowf (class_of (orb x)) x = T x)%R.
Proof.
  intros I V W. destruct (row_spec x V W) as (t & St & R1 & R2). rewrite (row_sum x) by (try assumption; intros y Vy H; rewrite R2 by assumption; ring).
  assert (P := orb_pos x V). rewrite (R1 1%Z x (orb_self n g Gg x (len_of x V))). rewrite (lsum_ext _ _ (fun _ => (IZR t / sqrt (INR (length (orb x))) * T x)%R)).
  - rewrite lsum_const. replace (t * 1)%Z with t by ring. set (q := sqrt (INR (length (orb x)))). assert (Eq : (q * q = INR (length (orb x)))%R) by (apply sqrt_sqrt; lra). assert (q <> 0)%R by (intros Q; rewrite Q in Eq; lra). rewrite <- Eq.
    pose proof (IZR_sign_sq t St) as Q. replace (q * q * (IZR t / q * T x) * (IZR t / q))%R with ((IZR t * IZR t) * T x)%R by (field; assumption). rewrite Q. ring.
  - intros [s y] H. cbn [snd]. rewrite (R1 s y H), (invariant_orb T x s y I V H), mult_IZR. destruct (orb_sign n g Gg x s y H) as (Ss & _). pose proof (IZR_sign_sq s Ss) as Q.
    replace (IZR t * IZR s / sqrt (INR (length (orb x))) * (IZR s * T x))%R with ((IZR s * IZR s) * (IZR t / sqrt (INR (length (orb x))) * T x))%R by (unfold Rdiv; ring). rewrite Q. ring.
Qed.
Lemma row_elsewhere x y : valid dims x -> ~ vanishing x -> valid dims y -> vanishing y \/ class_of (orb y) <> class_of (orb x) -> rowf (class_of (orb x)) y = 0%R.
Proof.
  intros Vx Wx Vy H. destruct (row_spec x Vx Wx) as (_ & _ & _ & R2). apply R2; [exact Vy|]. intros s Hs. destruct H as [H|H].
  - apply Wx. exact (vanishing_move n g Gg y s x (len_of y Vy) (orb_sym n g Gg x s y (len_of x Vx) Hs) H).
  - apply H. exact (class_same n g Gg x s y (len_of x Vx) Hs).
Qed.

Theorem reduction_basis : exists base, reduce_permutation_base g dims = Ok base /\
  let Q := reduce_permutation_matrix base dims in
  (forall r, In r Q -> invariant r) /\
  (forall a b, a < length Q -> b < length Q -> lsum (all_idx dims) (fun i => nth a Q (fun _ => 0%R) i * nth b Q (fun _ => 0%R) i)%R = if a =? b then 1%R else 0%R) /\
  (forall T, invariant T -> forall i, valid dims i -> T i = lsum Q (fun r => lsum (all_idx dims) (fun j => r j * T j) * r i)%R).
Proof.
  destruct (base_Ok n g dims Gg Ld) as (base & E & N & HB). exists base. split; [exact E|]. cbv zeta. change (reduce_permutation_matrix base dims) with (map rowf base). split; [|split].
  - intros r H. apply in_map_iff in H as (b & <- & Hb). apply HB in Hb as (x & V & W & ->). exact (row_invariant x V W).
  - rewrite map_length. intros a b Ha Hb. assert (Nth : forall k, k < length base -> nth k (map rowf base) (fun _ => 0%R) = rowf (nth k base [])) by (intros k Hk; rewrite (nth_indep _ (fun _ => 0%R) (rowf [])) by (rewrite map_length; exact Hk); apply map_nth).
    rewrite (Nth a Ha), (Nth b Hb). pose proof (proj1 (HB _) (nth_In base [] Ha)) as (x & Vx & Wx & Ex). pose proof (proj1 (HB _) (nth_In base [] Hb)) as (y & Vy & Wy & Ey).
    destruct (Nat.eqb_spec a b) as [<-|Nab].
    + rewrite Ex. exact (row_norm x Vx Wx).
    + apply lsum_zero. intros z Hz. apply all_idx_valid in Hz. rewrite Ex, Ey. apply row_disjoint; try assumption. rewrite <- Ex, <- Ey. intros Q. apply Nab. exact (proj1 (NoDup_nth base []) N a b Ha Hb Q).
  - intros T I i V. rewrite lsum_map.
    assert (Dec : vanishing i \/ ~ vanishing i) by (unfold vanishing; destruct (smem ((-1)%Z, i) (orb i)) eqn:Q; [left; apply smem_In, Q|right; intros H; apply smem_In in H; congruence]).
    destruct Dec as [W|W].
    + assert (T i = 0%R) as -> by (pose proof (invariant_orb T i _ i I V W) as Q; lra). symmetry. apply lsum_zero. intros b Hb. apply HB in Hb as (x & Vx & Wx & ->). rewrite (row_elsewhere x i) by (try assumption; left; exact W). ring.
    + rewrite (lsum_support base [class_of (orb i)]).
      * rewrite lsum_cons. cbn [lsum fold_right]. rewrite row_coeff by assumption. cbn. ring.
      * exact N.
      * repeat constructor. intros [].
      * intros b [<-|[]]. apply HB. exists i. split; [exact V|split; [exact W|reflexivity]].
      * intros b Hb Hn. apply HB in Hb as (x & Vx & Wx & ->). rewrite (row_elsewhere x i); [ring|exact Vx|exact Wx|exact V|]. right. intros Q. apply Hn. left. exact Q.
Qed.
(* a contradictory group: the basis is empty *)
Lemma reduction_contradictory : In ((-1)%Z, identity n) g -> reduce_permutation_base g dims = Ok [].
Proof.
  clear Cd. intros H. destruct (base_Ok n g dims Gg Ld) as (base & E & N & HB). rewrite E. f_equal. destruct base as [|b base]; [reflexivity|]. destruct (proj1 (HB b) (or_introl eq_refl)) as (x & V & W & _).
  exfalso. apply W. unfold vanishing. apply orb_In. exists (identity n). split; [exact H|]. rewrite permute_id by exact (len_of x V). reflexivity.
Qed.
End reduction.
