(* C10-C13: the user-level statements about e3nn_jax/perm.py.
   A permutation is a Python tuple (list nat) accepted by is_perm. *)
From Verif Require Import PyBase PermModel PermProofs.
From Verif Require PermSign.
From Coq Require Import Permutation.

(* C10 *)
Theorem C10_is_perm_exact p : is_perm p = true <-> Permutation p (seq 0 (length p)).
Proof. exact (is_perm_iff p). Qed.

Theorem C10_compose_is_function_composition p q : is_perm p = true -> is_perm q = true -> length p = length q ->
  exists r, compose p q = Ok r /\ is_perm r = true /\ length r = length p /\
    forall i, i < length p -> nth i r 0 = nth (nth i q 0) p 0.
Proof.
  intros Hp Hq E. exists (comp_nat p q). split; [apply compose_Ok; assumption|].
  split; [apply comp_nat_perm; assumption|]. split; [apply comp_nat_length|]. intros. apply comp_nat_nth; assumption.
Qed.

Theorem C10_compose_rejects p q : is_perm p = false \/ is_perm q = false \/ length p <> length q ->
  compose p q = Err AssertionError.
Proof. exact (compose_Err p q). Qed.

Theorem C10_compose_assoc p q r : is_perm p = true -> is_perm q = true -> is_perm r = true ->
  length p = length q -> length q = length r ->
  exists s, (let! qr := compose q r in compose p qr) = Ok s /\ (let! pq := compose p q in compose pq r) = Ok s.
Proof.
  intros Hp Hq Hr E1 E2. exists (comp_nat p (comp_nat q r)). rewrite (compose_Ok q r), (compose_Ok p q) by assumption.
  simpl. rewrite !compose_Ok; try (apply comp_nat_perm); try rewrite comp_nat_length; try assumption; try congruence.
  split; [reflexivity|]. rewrite comp_nat_assoc; trivial.
Qed.

Theorem C10_identity p : is_perm p = true ->
  compose (identity (length p)) p = Ok p /\ compose p (identity (length p)) = Ok p.
Proof.
  intros Hp. assert (L : length (identity (length p)) = length p) by apply seq_length.
  rewrite !compose_Ok; try apply identity_perm; try assumption; try congruence.
  rewrite comp_nat_id_l, comp_nat_id_r by assumption. split; reflexivity.
Qed.

Theorem C10_inverse p : is_perm p = true ->
  exists q, inverse p = Ok q /\ is_perm q = true /\
    compose p q = Ok (identity (length p)) /\ compose q p = Ok (identity (length p)).
Proof.
  intros Hp. exists (inv_nat p). split; [apply inverse_Ok; assumption|]. split; [apply inv_nat_perm; assumption|].
  rewrite !compose_Ok; try apply inv_nat_perm; try assumption; try (rewrite inv_nat_length; reflexivity).
  rewrite comp_nat_inv_r, comp_nat_inv_l by assumption. split; reflexivity.
Qed.

Example C10_nonvacuous : is_perm [2; 0; 3; 1] = true /\ compose [2; 0; 3; 1] [1; 0; 2; 3] = Ok [0; 2; 3; 1] /\
  compose [1; 0; 2; 3] [2; 0; 3; 1] = Ok [2; 1; 3; 0] /\ inverse [2; 0; 3; 1] = Ok [1; 3; 0; 2].
Proof. repeat split. Qed.

(* C11 *)
Theorem C11_from_int_is_perm i n : exists p, from_int i n = Ok p /\ is_perm p = true /\ length p = n.
Proof. exact (from_int_ok i n). Qed.

Theorem C11_to_int_from_int i n : i < fact n -> exists p, from_int i n = Ok p /\ to_int p = Ok i.
Proof.
  intros H. destruct (from_int_ok i n) as (p & E & _). exists p. split; [exact E|]. eapply to_from_int; eassumption.
Qed.

Theorem C11_from_int_to_int p : is_perm p = true ->
  exists k, to_int p = Ok k /\ k < fact (length p) /\ from_int k (length p) = Ok p.
Proof. exact (from_to_int p). Qed.

Theorem C11_group_is_all n : exists g, group n = Ok g /\ NoDup g /\ length g = fact n /\
  (forall p, In p g <-> is_perm p = true /\ length p = n).
Proof. exact (group_ok n). Qed.

Example C11_nonvacuous : from_int 5 4 = Ok [1; 2; 0; 3] /\ to_int [1; 2; 0; 3] = Ok 5.
Proof. repeat split. Qed.

(* C12.  [generated S] (PermProofs.v) is the inductive closure of S under inverse and compose. *)
Theorem C12_germinate_closure n S : perms_of n S -> NoDup S ->
  exists fuel G, germinate_loop fuel S = Some (Ok G) /\ NoDup G /\ (forall p, In p G <-> generated S p).
Proof.
  intros H1 H2. destruct (germinate_ok n S H1 H2 (fact n + 1)) as (G & HG); [lia|]. exists (fact n + 1), G. exact HG.
Qed.

(* termination: the while loop stops after at most n! rounds *)
Theorem C12_germinate_terminates n S fuel : perms_of n S -> NoDup S -> fact n < fuel + length S ->
  exists G, germinate_loop fuel S = Some (Ok G).
Proof. intros H1 H2 H3. destruct (germinate_ok n S H1 H2 fuel H3) as (G & HG & _). exists G; exact HG. Qed.

(* the result is the least set with the closure properties *)
Theorem C12_germinate_least n S fuel G : perms_of n S -> NoDup S -> fact n < fuel + length S ->
  germinate_loop fuel S = Some (Ok G) ->
  incl S G /\
  (forall p q, In p G -> inverse p = Ok q -> In q G) /\
  (forall p q r, In p G -> In q G -> compose p q = Ok r -> In r G) /\
  (forall T : list nat -> Prop, (forall p, In p S -> T p) ->
     (forall p q, T p -> inverse p = Ok q -> T q) ->
     (forall p q r, T p -> T q -> compose p q = Ok r -> T r) -> forall p, In p G -> T p).
Proof.
  intros H1 H2 H3 E. destruct (germinate_ok n S H1 H2 fuel H3) as (G' & E' & _ & HG). rewrite E in E'. injection E' as <-.
  split; [intros p Hp; apply HG, gen_in, Hp|]. split; [intros p q Hp Hq; apply HG; eapply gen_inv; [apply HG, Hp|exact Hq]|].
  split; [intros p q r Hp Hq Hr; apply HG; eapply gen_comp; [apply HG, Hp|apply HG, Hq|exact Hr]|].
  intros T T1 T2 T3 p Hp. apply HG in Hp. induction Hp; eauto.
Qed.

Theorem C12_is_group_exact n g : g <> [] -> perms_of n g ->
  exists b, is_group g = Ok b /\ (b = true <-> subgroup n g).
Proof. exact (is_group_ok n g). Qed.

Example C12_nonvacuous : exists G, germinate_loop 10 [[1; 2; 0]] = Some (Ok G) /\ length G = 3 /\
  In [0; 1; 2] G /\ ~ In [1; 0; 2] G.
Proof.
  eexists. split; [vm_compute; reflexivity|]. split; [reflexivity|]. split; [simpl; tauto|].
  simpl. intros [H|[H|[H|[]]]]; discriminate.
Qed.

(* C13 *)
(* an inversion: a pair of positions in increasing order whose images are in decreasing order *)
Definition inversions (p : list nat) : list (nat * nat) := filter (fun '(i, j) => (i <? j) && (nth j p 0 <? nth i p 0)) (list_prod (seq 0 (length p)) (seq 0 (length p))).

Theorem C13_sign_is_inversion_parity p : is_perm p = true -> sign p = Some (Ok (if Nat.even (length (inversions p)) then 1%Z else (-1)%Z)).
Proof.
  intros Hp. rewrite (PermSign.sign_ok p Hp). do 2 f_equal. unfold PermSign.eps.
  rewrite (PermSign.zprod_ext _ (fun q => if (let '(i, j) := q in nth i p 0 <? nth j p 0) then 1%Z else (-1)%Z)) by (intros [i j] _; reflexivity).
  rewrite PermSign.zprod_count. unfold PermSign.sgz. replace (filter _ (PermSign.pairs (length p))) with (inversions p); [reflexivity|].
  unfold inversions, PermSign.pairs. assert (F : forall (A : Type) (P Q : A -> bool) l, filter Q (filter P l) = filter (fun a => P a && Q a) l) by (intros A P Q l; induction l as [|a l IH]; [reflexivity|]; cbn [filter]; destruct (P a); cbn [filter andb]; [destruct (Q a); congruence|exact IH]).
  rewrite F. apply filter_ext_in. intros [i j] Hij. apply in_prod_iff in Hij as [Hi Hj]. apply in_seq in Hi, Hj. destruct (Nat.ltb_spec i j); [|reflexivity]. cbn [andb].
  assert (N : nth i p 0 <> nth j p 0) by (intros E; apply (perm_nth_inj p) in E; try assumption; lia). destruct (Nat.ltb_spec (nth j p 0) (nth i p 0)), (Nat.ltb_spec (nth i p 0) (nth j p 0)); try reflexivity; lia.
Qed.

Theorem C13_sign_homomorphism p q r : is_perm p = true -> is_perm q = true -> length p = length q ->
  compose p q = Ok r ->
  exists sp sq, sign p = Some (Ok sp) /\ sign q = Some (Ok sq) /\ sign r = Some (Ok (sp * sq)%Z).
Proof.
  intros Hp Hq E C. rewrite (compose_Ok p q Hp Hq E) in C. injection C as <-. do 2 eexists. split; [apply PermSign.sign_ok, Hp|split; [apply PermSign.sign_ok, Hq|]].
  rewrite PermSign.sign_ok by (apply comp_nat_perm; assumption). do 2 f_equal. rewrite comp_nat_length, <- E. rewrite <- PermSign.eps_comp; [|apply PermSign.fun_of_bij, Hp|rewrite E; apply PermSign.fun_of_bij, Hq].
  apply PermSign.eps_ext. intros i Hi. unfold PermSign.fun_of. apply comp_nat_nth, Hi.
Qed.

Theorem C13_sign_identity n : sign (identity n) = Some (Ok 1%Z).
Proof.
  rewrite (PermSign.sign_ok _ (identity_perm n)). do 2 f_equal. assert (L : length (identity n) = n) by apply seq_length. rewrite L. rewrite <- (PermSign.eps_id n). apply PermSign.eps_ext. intros i Hi. unfold PermSign.fun_of, identity. rewrite seq_nth by exact Hi. reflexivity.
Qed.

Theorem C13_sign_transposition p a b : is_perm p = true -> a < length p -> b < length p -> a <> b ->
  nth a p 0 = b -> nth b p 0 = a -> (forall i, i < length p -> i <> a -> i <> b -> nth i p 0 = i) ->
  sign p = Some (Ok (-1)%Z).
Proof.
  intros Hp Ha Hb Hab Ea Eb Ho. rewrite (PermSign.sign_ok p Hp). do 2 f_equal.
  assert (Q : forall a b, a < b < length p -> nth a p 0 = b -> nth b p 0 = a -> (forall i, i < length p -> i <> a -> i <> b -> nth i p 0 = i) -> PermSign.eps (length p) (PermSign.fun_of p) = (-1)%Z).
  { clear. intros a b H Ea Eb Ho. rewrite <- (PermSign.eps_swap (length p) a b H). apply PermSign.eps_ext. intros i Hi. unfold PermSign.fun_of. destruct (Nat.eq_dec i a) as [->|Na]; [rewrite PermSign.swap_l; exact Ea|]. destruct (Nat.eq_dec i b) as [->|Nb]; [rewrite PermSign.swap_r; exact Eb|]. rewrite PermSign.swap_o by assumption. apply Ho; assumption. }
  destruct (lt_dec a b); [apply (Q a b)|apply (Q b a)]; try assumption; try lia. intros; apply Ho; assumption.
Qed.

(* the sign of the inverse is the sign *)
Theorem C13_sign_inverse p q : is_perm p = true -> inverse p = Ok q -> sign q = sign p.
Proof.
  intros Hp E. rewrite (inverse_Ok p Hp) in E. injection E as <-. pose proof (inv_nat_perm p Hp) as Hi. destruct (C13_sign_homomorphism p (inv_nat p) (identity (length p)) Hp Hi) as (s & t & A & B & C); [rewrite inv_nat_length; reflexivity|rewrite compose_Ok by (assumption || (rewrite inv_nat_length; reflexivity)); rewrite comp_nat_inv_r by exact Hp; reflexivity|].
  rewrite C13_sign_identity in C. injection C as C. rewrite A, B. do 2 f_equal. symmetry in C. apply Z.mul_eq_1 in C as D. destruct D as [-> | ->]; lia.
Qed.

(* the orbit i, p[i], p[p[i]], ... of length k *)
Fixpoint orbit (p : list nat) (i k : nat) : list nat :=
  match k with 0 => [] | S k => i :: orbit p (nth i p 0) k end.
Fixpoint iterate (p : list nat) (k i : nat) : nat :=
  match k with 0 => i | S k => nth (iterate p k i) p 0 end.

Lemma path_orbit p i k : PermSign.path (PermSign.fun_of p) i 0 k = orbit p i k.
Proof.
  revert i. induction k as [|k IH]; intros i; [reflexivity|]. cbn [orbit]. rewrite <- IH. unfold PermSign.path at 1. cbn [seq map]. f_equal. exact (PermSign.path_shift (PermSign.fun_of p) i 1 k).
Qed.
Lemma iter_iterate p k i : Nat.iter k (PermSign.fun_of p) i = iterate p k i.
Proof. induction k as [|k IH]; [reflexivity|]. cbn [iterate]. rewrite <- IH. reflexivity. Qed.

(* to_cycles lists exactly the cycles of length >= 2, each once, each starting at its least element *)
Theorem C13_to_cycles_exact p : is_perm p = true ->
  exists cs, to_cycles p = Some (Ok cs) /\ NoDup cs /\
  forall c, In c cs <->
    exists i k, i < length p /\ 2 <= k /\ c = orbit p i k /\ iterate p k i = i /\
      (forall j, 0 < j < k -> i < iterate p j i).
Proof.
  intros Hp. destruct (PermSign.to_cycles_spec p Hp) as (cs & E & N & H). exists cs. split; [exact E|]. split; [exact N|].
  intros c. rewrite H. split; intros (i & k & H1 & H2 & H3 & H4); exists i, k.
  - destruct H4 as [H4 H5]. rewrite path_orbit in H3. rewrite iter_iterate in H4. repeat split; try assumption. intros j Hj. rewrite <- iter_iterate. apply H5, Hj.
  - destruct H4 as [H4 H5]. rewrite path_orbit. split; [exact H1|split; [exact H2|split; [exact H3|split; [rewrite iter_iterate; exact H4|]]]]. intros j Hj. rewrite iter_iterate. apply H5, Hj.
Qed.

Example C13_nonvacuous : to_cycles [1; 2; 0; 4; 3; 5] = Some (Ok [[0; 1; 2]; [3; 4]]) /\
  sign [1; 2; 0; 4; 3; 5] = Some (Ok (-1)%Z).
Proof. split; reflexivity. Qed.
