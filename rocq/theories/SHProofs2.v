(* The recursive algorithm computes kappa * P, whatever the order of evaluation and the contents of the dictionary. *)
From Coq Require Import Reals Lra ZArith Lia List Bool Arith.
From Verif Require Import PyBase IrrepsModel IrrepsProofs ArrayModel LeadModel SumR CGModel EntryProofs CGProofs3 RotationModel S2Model SHModel SHProofs.
Import ListNotations.
Open Scope R_scope.

Definition kappa (n : s2norm) (l : nat) : R := match n with Integral => sqrt ((2 * INR l + 1) / (4 * PI)) | Component => sqrt (2 * INR l + 1) | Norm => 1 end.
Definition fn (x : list R) : nat -> R := fun i => nth i x 0.
Definition Y (n : s2norm) (l : nat) (x : list R) : list R := tab (2 * l + 1) (fun k => kappa n l * P l (fn x) k).
Lemma pos4 l : 0 < (2 * INR l + 1) / (4 * PI).
Proof. pose proof PI_RGT_0. pose proof (pos_INR l). apply Rdiv_lt_0_compat; lra. Qed.
Lemma kappa_pos n l : 0 < kappa n l.
Proof. destruct n; cbn [kappa]; try lra; apply sqrt_lt_R0; [|apply pos4]; pose proof (pos_INR l); lra. Qed.
Lemma kappa_step n l1 l2 l : const_step n l1 l2 l * kappa n l1 * kappa n l2 = kappa n l.
Proof.
  destruct n; cbn [kappa const_step]; [| ring|].
  2: field; split; apply Rgt_not_eq, sqrt_lt_R0, pos4.
  - pose proof (pos_INR l). pose proof (pos_INR l1). pose proof (pos_INR l2). rewrite sqrt_div by nra. rewrite sqrt_mult by lra. field. split; apply Rgt_not_eq, sqrt_lt_R0; lra.
Qed.

Definition can_contract (alg : list keyword) : bool := has_kw KDense alg || has_kw KSparse alg.
Lemma sparse_sum n m (C : nat -> nat -> R) (u v : nat -> R) :
  lsum (flat_map (fun i => map (fun j => (i, j)) (filter (fun j => if Req_EM_T (C i j) 0 then false else true) (seq 0 m))) (seq 0 n)) (fun '(i, j) => C i j * u i * v j)
  = rsum n (fun i => rsum m (fun j => u i * v j * C i j)).
Proof.
  rewrite lsum_flat_map, lsum_seq. apply rsum_ext. intros i _. rewrite lsum_map, lsum_filter, lsum_seq. apply rsum_ext. intros j _. destruct (Req_EM_T (C i j) 0) as [E|]; [rewrite E; ring|ring].
Qed.
Lemma contract_spec alg l1 l2 l c u v : contract alg l1 l2 l c u v =
  if can_contract alg then Ok (tab (2 * l + 1) (fun k => c * rsum (2 * l1 + 1) (fun i => rsum (2 * l2 + 1) (fun j => nth i u 0 * nth j v 0 * sh_cg l1 l2 l i j k)))) else Err ValueError.
Proof.
  unfold contract, can_contract. cbv zeta.
  assert (F : forall k, rsum (2 * l1 + 1) (fun i => rsum (2 * l2 + 1) (fun j => nth i u 0 * nth j v 0 * (c * sh_cg l1 l2 l i j k))) = c * rsum (2 * l1 + 1) (fun i => rsum (2 * l2 + 1) (fun j => nth i u 0 * nth j v 0 * sh_cg l1 l2 l i j k))).
  { intros k. rewrite <- rsum_scal. apply rsum_ext. intros i _. rewrite <- rsum_scal. apply rsum_ext. intros j _. ring. }
  destruct (has_kw KDense alg); [cbn [orb]; apply (f_equal Ok), tab_ext; intros k _; apply F|]. destruct (has_kw KSparse alg); [|reflexivity].
  cbn [orb]. apply (f_equal Ok), tab_ext. intros k _. rewrite <- F. exact (sparse_sum (2 * l1 + 1) (2 * l2 + 1) (fun i j => c * sh_cg l1 l2 l i j k) (fun i => nth i u 0) (fun j => nth j v 0)).
Qed.

Lemma recursive_sh_S f l ctx x n alg : recursive_sh (S f) (S (S l)) ctx x n alg =
  (let! ctx := recursive_sh f (S (S l) - half (S (S l))) ctx x n alg in
   let! ctx := recursive_sh f (half (S (S l))) ctx x n alg in
   match lookup ctx (S (S l)) with
   | Some _ => Ok ctx
   | None =>
       let! u := get ctx (S (S l) - half (S (S l))) in
       let! v := get ctx (half (S (S l))) in
       let! w := contract alg (S (S l) - half (S (S l))) (half (S (S l))) (S (S l)) (const_step n (S (S l) - half (S (S l))) (half (S (S l))) (S (S l)) / central_norm (S (S l) - half (S (S l))) (half (S (S l))) (S (S l))) u v in
       Ok ((S (S l), w) :: ctx)
   end).
Proof. reflexivity. Qed.

(* the dictionary holds the right harmonics *)
Definition ctx_ok (x : list R) (n : s2norm) (c : context) : Prop := forall l v, lookup c l = Some v -> v = Y n l x.
Definition covers (c c' : context) : Prop := forall l, lookup c l <> None -> lookup c' l <> None.
Lemma covers_refl c : covers c c. Proof. intros l H. exact H. Qed.
Lemma covers_trans a b c : covers a b -> covers b c -> covers a c. Proof. intros H K l A. apply K, H, A. Qed.
Lemma covers_cons l v c : covers c ((l, v) :: c). Proof. intros k H. cbn [lookup]. destruct (l =? k)%nat; [discriminate|exact H]. Qed.
Lemma ctx_ok_cons x n c l v : ctx_ok x n c -> v = Y n l x -> ctx_ok x n ((l, v) :: c).
Proof. intros H -> k w. cbn [lookup]. destruct (Nat.eqb_spec l k) as [->|]; [now intros [= <-]|apply H]. Qed.
Lemma ctx_get x n c l : ctx_ok x n c -> lookup c l <> None -> get c l = Ok (Y n l x).
Proof. intros H L. unfold get. destruct (lookup c l) as [v|] eqn:E; [|congruence]. now rewrite (H l v E). Qed.

Lemma recursive_sh_correct x n alg : length x = 3%nat -> forall f l ctx, (l < f)%nat -> (l <= 1)%nat \/ can_contract alg = true -> ctx_ok x n ctx ->
  exists ctx', recursive_sh f l ctx x n alg = Ok ctx' /\ ctx_ok x n ctx' /\ covers ctx ctx' /\ lookup ctx' l <> None.
Proof.
  intros Lx. induction f as [|f IH]; intros l ctx Hf Hc Hok; [lia|]. destruct l as [|[|l]].
  - cbn [recursive_sh]. destruct (lookup ctx 0) eqn:E; [exists ctx; split; [reflexivity|]; split; [exact Hok|]; split; [apply covers_refl|congruence]|].
    eexists. split; [reflexivity|]. split; [|split; [apply covers_cons|discriminate]]. apply ctx_ok_cons; [exact Hok|]. destruct x as [|a [|b [|c [|]]]]; try discriminate Lx. cbn [firstn map]. unfold Y, tab. cbn [Nat.mul Nat.add seq map]. rewrite P_0.
    apply (f_equal (fun z : R => z :: nil)). destruct n; cbn [const0 kappa INR]; [rewrite Rmult_0_r, Rplus_0_l, sqrt_1; ring|ring|]. rewrite Rmult_0_r, Rplus_0_l. reflexivity.
  - cbn [recursive_sh]. destruct (lookup ctx 1) eqn:E; [exists ctx; split; [reflexivity|]; split; [exact Hok|]; split; [apply covers_refl|congruence]|].
    eexists. split; [reflexivity|]. split; [|split; [apply covers_cons|discriminate]]. apply ctx_ok_cons; [exact Hok|]. destruct x as [|a [|b [|c [|]]]]; try discriminate Lx. unfold Y, tab. cbn [Nat.mul Nat.add seq map]. rewrite !P_1. unfold fn. cbn [nth].
    assert (K : const1 n = kappa n 1) by (destruct n; cbn [const1 kappa INR]; [f_equal; ring|reflexivity|f_equal; f_equal; ring]). rewrite K. reflexivity.
  - destruct Hc as [Hc|Hc]; [lia|]. rewrite recursive_sh_S. pose proof (half_spec (S (S l)) ltac:(lia)) as Hh. pose proof (P_step (S (S l)) (fn x)) as PS. cbv zeta in PS. pose proof (kappa_step n (S (S l) - half (S (S l))) (half (S (S l))) (S (S l))) as KS. revert Hh PS KS. generalize (half (S (S l))) as l2. intros l2 Hh PS KS.
    destruct (IH (S (S l) - l2)%nat ctx ltac:(lia) (or_intror Hc) Hok) as (c1 & -> & O1 & C1 & L1). cbn [bind]. destruct (IH l2 c1 ltac:(lia) (or_intror Hc) O1) as (c2 & -> & O2 & C2 & L2). cbn [bind].
    destruct (lookup c2 (S (S l))) eqn:E; [exists c2; split; [reflexivity|]; split; [exact O2|]; split; [eapply covers_trans; eassumption|congruence]|].
    rewrite (ctx_get x n c2 _ O2 (C2 _ L1)), (ctx_get x n c2 _ O2 L2). cbn [bind]. rewrite contract_spec, Hc. cbn [bind]. eexists. split; [reflexivity|]. split; [|split; [eapply covers_trans; [eapply covers_trans; eassumption|apply covers_cons]|cbn [lookup]; rewrite Nat.eqb_refl; discriminate]].
    apply ctx_ok_cons; [exact O2|]. unfold Y at 3. apply tab_ext. intros k Hk. rewrite PS by lia. rewrite <- KS. set (cn := central_norm _ _ _).
    assert (E2 : rsum (2 * (S (S l) - l2) + 1) (fun i => rsum (2 * l2 + 1) (fun j => nth i (Y n (S (S l) - l2) x) 0 * nth j (Y n l2 x) 0 * sh_cg (S (S l) - l2) l2 (S (S l)) i j k))
               = kappa n (S (S l) - l2) * kappa n l2 * rsum (2 * (S (S l) - l2) + 1) (fun i => rsum (2 * l2 + 1) (fun j => P (S (S l) - l2) (fn x) i * P l2 (fn x) j * sh_cg (S (S l) - l2) l2 (S (S l)) i j k))).
    { rewrite <- rsum_scal. apply rsum_ext. intros i Hi. rewrite <- rsum_scal. apply rsum_ext. intros j Hj. unfold Y. rewrite !nth_tab by assumption. ring. }
    rewrite E2. unfold Rdiv. ring.
Qed.
(* without "dense" or "sparse", degrees above 1 cannot be evaluated *)
Lemma recursive_sh_low x n alg f l ctx : (l <= 1)%nat -> (forall k, (2 <= k)%nat -> lookup ctx k = None) -> exists ctx', recursive_sh (S f) l ctx x n alg = Ok ctx' /\ (forall k, (2 <= k)%nat -> lookup ctx' k = None) /\ lookup ctx' l <> None /\ covers ctx ctx'.
Proof.
  intros H Hk. destruct l as [|[|l]]; [| |lia].
  - cbn [recursive_sh]. destruct (lookup ctx 0) eqn:E.
    + exists ctx. split; [reflexivity|]. split; [exact Hk|]. split; [congruence|apply covers_refl].
    + eexists. split; [reflexivity|]. split; [|split; [discriminate|apply covers_cons]]. intros k K. cbn [lookup]. destruct (Nat.eqb_spec 0 k); [lia|auto].
  - cbn [recursive_sh]. destruct (lookup ctx 1) eqn:E.
    + exists ctx. split; [reflexivity|]. split; [exact Hk|]. split; [congruence|apply covers_refl].
    + eexists. split; [reflexivity|]. split; [|split; [discriminate|apply covers_cons]]. intros k K. cbn [lookup]. destruct (Nat.eqb_spec 1 k); [lia|auto].
Qed.
Lemma recursive_sh_rejects x n alg : can_contract alg = false -> forall f l ctx, (l < f)%nat -> (2 <= l)%nat -> (forall k, (2 <= k)%nat -> lookup ctx k = None) -> recursive_sh f l ctx x n alg = Err ValueError.
Proof.
  intros Hc. induction f as [|f IH]; intros l ctx Hf Hl Hk; [lia|]. destruct l as [|[|l]]; [lia|lia|]. rewrite recursive_sh_S. pose proof (half_spec (S (S l)) ltac:(lia)) as Hh. revert Hh. generalize (half (S (S l))) as l2. intros l2 Hh.
  destruct (le_lt_dec 2 (S (S l) - l2)) as [G|G]; [rewrite IH by (try lia; auto); reflexivity|]. destruct f as [|f]; [lia|]. destruct (recursive_sh_low x n alg f (S (S l) - l2) ctx ltac:(lia) Hk) as (c1 & -> & K1 & L1 & C1). cbn [bind].
  destruct (le_lt_dec 2 l2) as [G2|G2]; [rewrite IH by (try lia; auto); reflexivity|]. destruct (recursive_sh_low x n alg f l2 c1 ltac:(lia) K1) as (c2 & -> & K2 & L2 & C2). cbn [bind]. rewrite (K2 (S (S l))) by lia.
  unfold get. destruct (lookup c2 (S (S l) - l2)) eqn:E1; [|exfalso; exact (C2 _ L1 E1)]. destruct (lookup c2 l2) eqn:E2; [|congruence]. cbn [bind]. rewrite contract_spec, Hc. reflexivity.
Qed.
Lemma run_recursive_correct x n alg : length x = 3%nat -> forall ls ctx, Forall (fun l => (l <= 1)%nat \/ can_contract alg = true) ls -> ctx_ok x n ctx ->
  exists ctx', run_recursive ls ctx x n alg = Ok ctx' /\ ctx_ok x n ctx' /\ covers ctx ctx' /\ Forall (fun l => lookup ctx' l <> None) ls.
Proof.
  intros Lx. induction ls as [|l ls IH]; intros ctx F O; [exists ctx; auto using covers_refl|]. inversion F as [|? ? Hl Fl]; subst. cbn [run_recursive]. destruct (recursive_sh_correct x n alg Lx (l + 1) l ctx ltac:(lia) Hl O) as (c1 & -> & O1 & C1 & L1). cbn [bind].
  destruct (IH c1 Fl O1) as (c2 & E & O2 & C2 & F2). exists c2. split; [exact E|]. split; [exact O2|]. split; [eapply covers_trans; eassumption|]. constructor; auto.
Qed.
Lemma map_res_ok {A B} (f : A -> res B) (g : A -> B) l : Forall (fun a => f a = Ok (g a)) l -> map_res f l = Ok (map g l).
Proof. induction 1 as [|a l H F IH]; [reflexivity|]. cbn [map_res map]. rewrite H, IH. reflexivity. Qed.
(* the condition under which the recursive algorithm applies *)
Definition recursive_ok (alg : list keyword) (ls : list nat) : Prop := can_contract alg = true \/ Forall (fun l => (l <= 1)%nat) ls.
Lemma harmonics_recursive ls x n alg : length x = 3%nat -> has_kw KLegendre alg = false -> has_kw KRecursive alg = true -> recursive_ok alg ls -> harmonics ls x n alg = Ok (map (fun l => Y n l x) ls).
Proof.
  intros Lx NL R H. unfold harmonics. rewrite NL, R. assert (F : Forall (fun l => (l <= 1)%nat \/ can_contract alg = true) ls).
  { destruct H as [H|H]; [apply Forall_forall; auto|eapply Forall_impl; [|exact H]; auto]. }
  destruct (run_recursive_correct x n alg Lx ls [] F) as (c & -> & O & _ & L); [intros k v; discriminate|]. cbn [bind]. apply map_res_ok. eapply Forall_impl; [|exact L]. intros l Hl. now apply ctx_get.
Qed.
Lemma harmonics_rejects ls x n alg : has_kw KLegendre alg = false -> has_kw KRecursive alg = true -> ~ recursive_ok alg ls -> harmonics ls x n alg = Err ValueError.
Proof.
  intros NL R H. unfold harmonics. rewrite NL, R. assert (Hc : can_contract alg = false) by (destruct (can_contract alg) eqn:E; [exfalso; apply H; now left|reflexivity]).
  assert (G : ~ Forall (fun l => (l <= 1)%nat) ls) by (intros F; apply H; now right). clear H.
  enough (Q : forall ctx, (forall k, (2 <= k)%nat -> lookup ctx k = None) -> run_recursive ls ctx x n alg = Err ValueError) by (rewrite Q by reflexivity; reflexivity).
  induction ls as [|l ls IH]; intros ctx K; [exfalso; apply G; constructor|]. cbn [run_recursive]. destruct (le_lt_dec 2 l) as [H2|H2].
  - rewrite recursive_sh_rejects by (auto; lia). reflexivity.
  - rewrite Nat.add_1_r. destruct (recursive_sh_low x n alg l l ctx ltac:(lia) K) as (c1 & -> & K1 & _). cbn [bind]. apply IH; [|exact K1]. intros F. apply G. constructor; [lia|exact F].
Qed.
