(* C44: parity bookkeeping of signals on the sphere. *)
From Coq Require Import Reals Lra ZArith Lia.
From Coquelicot Require Import Coquelicot.
From Verif Require Import PyBase IrrepsModel ArrayModel SumR CGModel ActivationModel NormActProofs ActivationProps TrigProofs S2Model LegendreProofs S2Proofs.
Open Scope R_scope.

(* ---- specification ---- *)
(* a function on the sphere (here on vectors) under inversion of space: its values are multiplied by p_val and its argument by p_arg *)
Definition sgnR (p : parity) : R := match p with Even => 1 | Odd => -1 end.
Definition times (p : parity) (v : R * R * R) : R * R * R := let '(x, y, z) := v in (sgnR p * x, sgnR p * y, sgnR p * z).
Definition inverted (p_val p_arg : parity) (f : R * R * R -> R) : R * R * R -> R := fun v => sgnR p_val * f (times p_arg v).
(* every irrep of degree l has parity a * b^l *)
Definition of_form (x : irreps) (a b : parity) : Prop := forall mul ir, In (mul, ir) x -> ir_p ir = pmul a (ppow b (ir_l ir)).
Definition given (o : option parity) (p : parity) : Prop := match o with None => True | Some q => q = p end.
(* the pairs (p_val, p_arg) compatible with the irreps and with what the caller gave *)
Definition compatible (x : irreps) (p_val p_arg : option parity) (a b : parity) : Prop := given p_val a /\ given p_arg b /\ of_form x a b.

(* ---- s2_irreps ---- *)
Theorem C44_s2_irreps lmax p_val p_arg :
  length (s2_irreps lmax p_val p_arg) = (lmax + 1)%nat /\
  (forall l, (l <= lmax)%nat -> nth_error (s2_irreps lmax p_val p_arg) l = Some (1%nat, Irrep l (pmul p_val (ppow p_arg l)))) /\
  dim (s2_irreps lmax p_val p_arg) = ((lmax + 1) ^ 2)%nat /\ of_form (s2_irreps lmax p_val p_arg) p_val p_arg.
Proof.
  unfold s2_irreps. split; [rewrite map_length, seq_length; reflexivity|]. split; [|split].
  - intros l H. rewrite nth_error_map. replace (nth_error (seq 0 (lmax + 1)) l) with (Some l); [reflexivity|]. symmetry. rewrite (nth_error_nth' _ 0%nat) by (rewrite seq_length; lia). rewrite seq_nth by lia. reflexivity.
  - unfold dim. rewrite map_map. rewrite (map_ext _ (fun l => 2 * l + 1)%nat) by (intros l; unfold ir_dim; cbn [ir_l]; lia). change (sum (map (fun l => (2 * l + 1)%nat) (seq 0 (lmax + 1)))) with (num_coeffs (seq 0 (lmax + 1))). rewrite num_coeffs_seq. cbn [Nat.pow]. lia.
  - intros mul ir H. apply in_map_iff in H as (l & E & _). injection E as <- <-. reflexivity.
Qed.

(* ---- _check_parities ---- *)
Lemma ppow_mod b l : ppow b l = if (l mod 2 =? 0)%nat then Even else b.
Proof.
  assert (H : ppow b l = if Nat.even l then Even else b).
  { induction l as [|l IH]; [reflexivity|]. cbn [ppow]. rewrite IH, Nat.even_succ, <- Nat.negb_even. destruct (Nat.even l), b; reflexivity. }
  rewrite H. pose proof (Nat.div_mod l 2). destruct (Nat.even l) eqn:E.
  - apply Nat.even_spec in E as [k ->]. rewrite Nat.mul_comm, Nat.mod_mul by lia. reflexivity.
  - assert (O : Nat.odd l = true) by (rewrite <- Nat.negb_even, E; reflexivity). apply Nat.odd_spec in O as [k ->]. rewrite Nat.add_comm, Nat.mul_comm, Nat.mod_add by lia. reflexivity.
Qed.
Definition in_set (r : res (option parity)) (p : parity) : Prop := match r with Err _ => False | Ok None => True | Ok (Some q) => q = p end.
Lemma parity_set_spec ps p : in_set (parity_set ps) p <-> Forall (eq p) ps.
Proof.
  destruct ps as [|q ps]; [split; constructor|]. unfold parity_set. destruct (forallb (parity_eqb q) ps) eqn:E; cbn [in_set].
  - rewrite forallb_forall in E. split.
    + intros <-. constructor; [reflexivity|]. apply Forall_forall. intros z Hz. specialize (E z Hz). destruct q, z; (reflexivity || discriminate).
    + intros F. inversion F. congruence.
  - split; [contradiction|]. intros F. assert (T : forallb (parity_eqb q) ps = true); [|congruence]. rewrite Forall_forall in F. apply forallb_forall. intros z Hz. rewrite <- (F q (or_introl eq_refl)), <- (F z (or_intror Hz)). destruct p; reflexivity.
Qed.
Lemma parity_set_none ps : parity_set ps = Ok None -> ps = [].
Proof. destruct ps; [reflexivity|]. unfold parity_set. destruct (forallb _ _); discriminate. Qed.
Lemma parity_set_err ps z : parity_set ps = Err z -> z = ValueError.
Proof. unfold parity_set. destruct ps as [|p ps]; [discriminate|]. destruct (forallb (parity_eqb p) ps); congruence. Qed.
Lemma of_form_sets x a b : of_form x a b <->
  in_set (parity_set (map (fun m => ir_p (snd m)) (filter (fun m => (ir_l (snd m) mod 2 =? 0)%nat) x))) a /\
  in_set (parity_set (map (fun m => ir_p (snd m)) (filter (fun m => (ir_l (snd m) mod 2 =? 1)%nat) x))) (pmul a b).
Proof.
  rewrite !parity_set_spec, !Forall_map, !Forall_forall. unfold of_form. split.
  - intros H. split; intros [mul ir] I; apply filter_In in I as [I E]; cbn [snd] in *; rewrite (H mul ir I), ppow_mod; apply Nat.eqb_eq in E; rewrite E; cbn [Nat.eqb]; destruct a, b; reflexivity.
  - intros [H0 H1] mul ir I. rewrite ppow_mod. destruct (Nat.eqb_spec (ir_l ir mod 2) 0) as [E|E].
    + specialize (H0 (mul, ir)). cbn [snd] in H0. rewrite <- H0; [destruct a; reflexivity|]. apply filter_In. split; [exact I|]. cbn [snd]. rewrite E. reflexivity.
    + specialize (H1 (mul, ir)). cbn [snd] in H1. rewrite <- H1; [reflexivity|]. apply filter_In. split; [exact I|]. cbn [snd]. pose proof (Nat.mod_upper_bound (ir_l ir) 2). apply Nat.eqb_eq. lia.
Qed.
Lemma no_irreps x : filter (fun m : mulirrep => (ir_l (snd m) mod 2 =? 0)%nat) x = [] -> filter (fun m : mulirrep => (ir_l (snd m) mod 2 =? 1)%nat) x = [] -> x = [].
Proof.
  destruct x as [|[mul ir] x]; [reflexivity|]. cbn [filter snd]. pose proof (Nat.mod_upper_bound (ir_l ir) 2). destruct (Nat.eqb_spec (ir_l ir mod 2) 0); [discriminate|]. destruct (Nat.eqb_spec (ir_l ir mod 2) 1); [discriminate|lia].
Qed.
(* the check succeeds exactly when some pair (p_val, p_arg) explains the irreps, in which case what it returns is what all such pairs have in common *)
Theorem C44_check_parities x p_val p_arg :
  ((exists a b, compatible x p_val p_arg a b) -> exists r, check_parities x p_val p_arg = Ok r) /\
  ((forall a b, ~ compatible x p_val p_arg a b) -> check_parities x p_val p_arg = Err ValueError) /\
  (forall a' b', check_parities x p_val p_arg = Ok (a', b') ->
     (exists a b, compatible x p_val p_arg a b) /\
     (forall a b, compatible x p_val p_arg a b -> given a' a /\ given b' b) /\
     (a' = None -> exists b c, compatible x p_val p_arg Even b /\ compatible x p_val p_arg Odd c) /\
     (b' = None -> (x = [] /\ p_val = None /\ p_arg <> None) \/ exists a c, compatible x p_val p_arg a Even /\ compatible x p_val p_arg c Odd)).
Proof.
  unfold compatible. unfold check_parities.
  pose proof (of_form_sets x) as F. pose proof (parity_set_none (map (fun m => ir_p (snd m)) (filter (fun m => (ir_l (snd m) mod 2 =? 0)%nat) x))) as N0. pose proof (parity_set_none (map (fun m => ir_p (snd m)) (filter (fun m => (ir_l (snd m) mod 2 =? 1)%nat) x))) as N1.
  set (e := parity_set (map _ (filter (fun m => (_ mod 2 =? 0)%nat) x))) in *. set (o := parity_set (map _ (filter (fun m => (_ mod 2 =? 1)%nat) x))) in *.
  assert (NN : e = Ok None -> o = Ok None -> x = []) by (intros A B; apply no_irreps; eapply map_eq_nil; [apply N0, A|apply N1, B]). clear N0 N1.
  assert (EE : forall z, e = Err z -> z = ValueError) by (intros z; apply parity_set_err).
  assert (EO : forall z, o = Err z -> z = ValueError) by (intros z; apply parity_set_err).
  clearbody e o.
  assert (F' : forall a b, given p_val a /\ given p_arg b /\ of_form x a b <-> given p_val a /\ given p_arg b /\ in_set e a /\ in_set o (pmul a b)) by (intros a b; rewrite F; reflexivity).
  destruct e as [[[]|]|z], o as [[[]|]|z'], p_val as [[]|], p_arg as [[]|]; cbn [bind in_or_none parity_eqb pmul andb];
    try rewrite (EE _ eq_refl); try rewrite (EO _ eq_refl);
    (split; [intros (a & b & H); apply F' in H; cbn [given in_set] in H; first [eexists; reflexivity|exfalso; destruct a, b; cbn in H; intuition discriminate]|]);
    (split; [intros H; first [reflexivity|exfalso; first [apply (H Even Even); apply F'; cbn; tauto|apply (H Even Odd); apply F'; cbn; tauto|apply (H Odd Even); apply F'; cbn; tauto|apply (H Odd Odd); apply F'; cbn; tauto]]|]);
    intros a' b' H; try discriminate; injection H as <- <-;
    (split; [first [exists Even, Even; apply F'; cbn; tauto|exists Even, Odd; apply F'; cbn; tauto|exists Odd, Even; apply F'; cbn; tauto|exists Odd, Odd; apply F'; cbn; tauto]|]);
    (split; [intros a b H; apply F' in H; destruct a, b; cbn in *; intuition discriminate|]);
    (split; [intros H; first [discriminate H|exists Even, Even; split; apply F'; cbn; tauto|exists Even, Odd; split; apply F'; cbn; tauto|exists Odd, Even; split; apply F'; cbn; tauto|exists Odd, Odd; split; apply F'; cbn; tauto]|]);
    intros H; first [discriminate H|right; first [exists Even, Even; split; apply F'; cbn; tauto|exists Even, Odd; split; apply F'; cbn; tauto|exists Odd, Even; split; apply F'; cbn; tauto|exists Odd, Odd; split; apply F'; cbn; tauto]|left; repeat split; [exact (NN eq_refl eq_refl)|discriminate]].
Qed.
(* with both parities given the check is the documented condition *)
Theorem C44_check_both x a b : check_parities x (Some a) (Some b) = Ok (Some a, Some b) <-> of_form x a b.
Proof.
  destruct (C44_check_parities x (Some a) (Some b)) as (A & B & C). split.
  - intros E. destruct (C _ _ E) as ((a' & b' & (<- & <- & F)) & _). exact F.
  - intros F. destruct (A (ex_intro _ a (ex_intro _ b (conj eq_refl (conj eq_refl F))))) as ([a' b'] & E). rewrite E. destruct (C _ _ E) as (_ & G & H1 & H2). destruct (G a b (conj eq_refl (conj eq_refl F))) as [Ga Gb].
    f_equal. f_equal.
    + destruct a' as [a'|]; [cbn in Ga; congruence|]. destruct (H1 eq_refl) as (p & q & (X & _) & (Y & _)). cbn in X, Y. congruence.
    + destruct b' as [b'|]; [cbn in Gb; congruence|]. destruct (H2 eq_refl) as [(_ & D & _)|(p & q & (_ & X & _) & (_ & Y & _))]; [discriminate|]. cbn in X, Y. congruence.
Qed.
Example C44_check_example :
  check_parities [(1%nat, Irrep 0 Even); (1%nat, Irrep 1 Odd); (2%nat, Irrep 3 Odd)] None None = Ok (Some Even, Some Odd) /\
  check_parities [(1%nat, Irrep 1 Odd)] None (Some Odd) = Ok (Some Even, Some Odd) /\
  check_parities [(1%nat, Irrep 1 Odd)] (Some Odd) None = Ok (Some Odd, Some Even) /\
  check_parities [(1%nat, Irrep 0 Even); (1%nat, Irrep 2 Odd)] None None = Err ValueError.
Proof. repeat split. Qed.

(* ---- arithmetic of signals ---- *)
Definition agree_on_grid (s t : signal) : Prop :=
  g_lead s = g_lead t /\ g_beta s = g_beta t /\ g_alpha s = g_alpha t /\ g_quad s = g_quad t /\ g_pval s = g_pval t /\ g_parg s = g_parg t /\
  forall i b a, valid (g_lead s) i -> (b < g_beta s)%nat -> (a < g_alpha s)%nat -> g_val s i b a = g_val t i b a.
Lemma valid_nil_bidx i : valid [] i -> bidx [] i = i.
Proof. intros V. inversion V. reflexivity. Qed.
(* the product of two sampled functions is the sampled product, with p_val multiplied; and inverting the factors inverts the product with that parity: the declared parity is the right one *)
Theorem C44_product lg f g B A q pv pv' pa s t : from_function lg f B A q pv pa = Ok s -> from_function lg g B A q pv' pa = Ok t ->
  exists u, sig_mul s t = Ok u /\ (exists w, from_function lg (fun v => f v * g v) B A q (pmul pv pv') pa = Ok w /\ agree_on_grid u w) /\
  forall v, inverted pv pa f v * inverted pv' pa g v = inverted (pmul pv pv') pa (fun v => f v * g v) v.
Proof.
  unfold from_function. intros E E'. destruct (quadrature_weights lg q B) as [r|]; [|discriminate]. cbn [bind] in *. injection E as <-. injection E' as <-.
  unfold sig_mul, same_grid. cbn [g_quad g_beta g_alpha g_parg g_pval]. replace (quad_eqb q q) with true by (destruct q; reflexivity). rewrite !Nat.eqb_refl. replace (parity_eqb pa pa) with true by (destruct pa; reflexivity). cbn [negb andb].
  eexists. split; [reflexivity|]. split.
  - eexists. split; [reflexivity|]. unfold agree_on_grid. do 6 (split; [reflexivity|]). intros i b a V Hb Ha. cbn [g_lead g_val]. inversion V. reflexivity.
  - intros v. unfold inverted. destruct pv, pv'; cbn [pmul sgnR]; ring.
Qed.
Theorem C44_sum lg f g B A q pv pa s t : from_function lg f B A q pv pa = Ok s -> from_function lg g B A q pv pa = Ok t ->
  exists u, sig_add s t = Ok u /\ (exists w, from_function lg (fun v => f v + g v) B A q pv pa = Ok w /\ agree_on_grid u w) /\
  forall v, inverted pv pa f v + inverted pv pa g v = inverted pv pa (fun v => f v + g v) v.
Proof.
  unfold from_function. intros E E'. destruct (quadrature_weights lg q B) as [r|]; [|discriminate]. cbn [bind] in *. injection E as <-. injection E' as <-.
  unfold sig_add, same_grid. cbn [g_quad g_beta g_alpha g_parg g_pval]. replace (quad_eqb q q) with true by (destruct q; reflexivity). rewrite !Nat.eqb_refl. replace (parity_eqb pa pa) with true by (destruct pa; reflexivity). replace (parity_eqb pv pv) with true by (destruct pv; reflexivity). cbn [negb andb].
  eexists. split; [reflexivity|]. split.
  - eexists. split; [reflexivity|]. unfold agree_on_grid. do 6 (split; [reflexivity|]). intros i b a V Hb Ha. cbn [g_lead g_val]. inversion V. reflexivity.
  - intros v. unfold inverted. ring.
Qed.
Theorem C44_difference lg f g B A q pv pa s t : from_function lg f B A q pv pa = Ok s -> from_function lg g B A q pv pa = Ok t ->
  exists u, sig_sub s t = Ok u /\ exists w, from_function lg (fun v => f v - g v) B A q pv pa = Ok w /\ agree_on_grid u w.
Proof.
  intros E E'. assert (N : exists t', from_function lg (fun v => - g v) B A q pv pa = Ok t' /\ sig_neg t = t').
  { unfold from_function in *. destruct (quadrature_weights lg q B) as [r|]; [|discriminate]. cbn [bind] in *. injection E' as <-. eexists. split; reflexivity. }
  destruct N as (t' & E2 & <-). destruct (C44_sum lg f (fun v => - g v) B A q pv pa s (sig_neg t) E E2) as (u & U & (w & Hw & G) & _). exists u. split; [exact U|]. exists w. split; [exact Hw|exact G].
Qed.
(* a scalar does not change the parities *)
Theorem C44_scaling lg f c B A q pv pa s : from_function lg f B A q pv pa = Ok s ->
  exists u, sig_scale s [] (fun _ => c) = Ok u /\ (exists w, from_function lg (fun v => f v * c) B A q pv pa = Ok w /\ agree_on_grid u w) /\
  forall v, inverted pv pa f v * c = inverted pv pa (fun v => f v * c) v.
Proof.
  unfold from_function. intros E. destruct (quadrature_weights lg q B) as [r|]; [|discriminate]. cbn [bind] in *. injection E as <-. unfold sig_scale. eexists. split; [reflexivity|]. split.
  - eexists. split; [reflexivity|]. unfold agree_on_grid. do 6 (split; [reflexivity|]). intros i b a V Hb Ha. cbn [g_lead g_val]. inversion V. reflexivity.
  - intros v. unfold inverted. ring.
Qed.
(* combinations with no meaning are refused, with a ValueError *)
Theorem C44_rejects s t :
  (g_quad s <> g_quad t \/ g_beta s <> g_beta t \/ g_alpha s <> g_alpha t \/ g_parg s <> g_parg t -> sig_mul s t = Err ValueError) /\
  (g_quad s <> g_quad t \/ g_beta s <> g_beta t \/ g_alpha s <> g_alpha t \/ g_parg s <> g_parg t \/ g_pval s <> g_pval t -> sig_add s t = Err ValueError /\ sig_sub s t = Err ValueError) /\
  (forall y, irr y <> [(1%nat, Irrep 0 Even)] -> sig_scale_ia s y = Err ValueError).
Proof.
  assert (Q : forall a b, a <> b -> quad_eqb a b = false) by (intros [] [] ?; first [reflexivity|congruence]). assert (P : forall a b, a <> b -> parity_eqb a b = false) by (intros [] [] ?; first [reflexivity|congruence]). assert (N : forall a b : nat, a <> b -> (a =? b)%nat = false) by (intros; apply Nat.eqb_neq; assumption).
  assert (AD : forall t, g_quad s <> g_quad t \/ g_beta s <> g_beta t \/ g_alpha s <> g_alpha t \/ g_parg s <> g_parg t \/ g_pval s <> g_pval t -> sig_add s t = Err ValueError).
  { clear t. intros t H. unfold sig_add, same_grid. destruct H as [H|[H|[H|[H|H]]]]; [rewrite (Q _ _ H)|rewrite (N _ _ H)|rewrite (N _ _ H)|rewrite (P _ _ H)|rewrite (P _ _ H)]; rewrite ?andb_false_r; cbn [andb negb]; try reflexivity; repeat (match goal with |- (if ?c then _ else _) = _ => destruct c end); reflexivity. }
  split; [|split].
  - intros H. unfold sig_mul, same_grid. destruct H as [H|[H|[H|H]]]; [rewrite (Q _ _ H)|rewrite (N _ _ H)|rewrite (N _ _ H)|rewrite (P _ _ H)]; rewrite ?andb_false_r; cbn [andb negb]; try reflexivity; repeat (match goal with |- (if ?c then _ else _) = _ => destruct c end); reflexivity.
  - intros H. split; [apply AD, H|]. unfold sig_sub. apply AD. exact H.
  - intros y H. unfold sig_scale_ia. destruct (irreps_eqb (irr y) [(1%nat, Irrep 0 Even)]) eqn:E; [|reflexivity]. exfalso. apply H. destruct (irr y) as [|[m [l p]] [|[m' r] ?]]; try discriminate; cbn [irreps_eqb] in E.
    + rewrite andb_true_r in E. apply andb_prop in E as [E1 E2]. apply Nat.eqb_eq in E1 as ->. unfold irrep_eqb in E2. cbn [ir_l ir_p] in E2. apply andb_prop in E2 as [E2 E3]. apply Nat.eqb_eq in E2 as ->. destruct p; [reflexivity|discriminate].
    + rewrite andb_false_r in E. discriminate.
Qed.
(* apply: a function is refused on odd values when it has no definite parity; the result has the right parity when the values are even or the function is odd *)
Theorem C44_apply phi lg f B A q pv pa s : from_function lg f B A q pv pa = Ok s ->
  (pv = Odd -> parity_function phi = 0%Z -> sig_apply phi s = Err ValueError) /\
  (pv = Even \/ parity_function phi <> 0%Z -> exists u, sig_apply phi s = Ok u /\ exists w, from_function lg (fun v => phi (f v)) B A q pv pa = Ok w /\ agree_on_grid u w) /\
  (pv = Even \/ (forall t, phi (- t) = - phi t) -> forall v, phi (inverted pv pa f v) = inverted pv pa (fun v => phi (f v)) v).
Proof.
  unfold from_function. intros E. destruct (quadrature_weights lg q B) as [r|]; [|discriminate]. cbn [bind] in *. injection E as <-. unfold sig_apply. cbn [g_pval g_lead g_beta g_alpha g_val g_quad g_parg]. split; [|split].
  - intros -> ->. reflexivity.
  - intros H. replace (match pv with Odd => parity_function phi | Even => 1%Z end =? 0)%Z with false.
    + eexists. split; [reflexivity|]. eexists. split; [reflexivity|]. repeat split.
    + symmetry. destruct pv; [reflexivity|]. apply Z.eqb_neq. destruct H as [H|H]; [discriminate|exact H].
  - intros H v. unfold inverted. destruct pv; cbn [sgnR]; [rewrite !Rmult_1_l; reflexivity|]. destruct H as [H|H]; [discriminate|]. replace (-1 * f (times pa v)) with (- f (times pa v)) by ring. rewrite H. ring.
Qed.
(* but not for an even function of odd values: the values become even, the signal still says odd *)
Theorem C44_apply_even_refuted : exists phi lg f B A q pa s u, from_function lg f B A q Odd pa = Ok s /\ sig_apply phi s = Ok u /\ (forall t, phi (- t) = phi t) /\
  g_pval u = Odd /\ (forall v, phi (inverted Odd pa f v) = inverted Even pa (fun v => phi (f v)) v) /\ exists v, phi (inverted Odd pa f v) <> inverted (g_pval u) pa (fun v => phi (f v)) v.
Proof.
  exists (fun t => t * t), (fun _ => (fun _ => 0, fun _ => 0)), (fun _ => 1), 2%nat, 3%nat, Soft, Odd. eexists. eexists. split; [reflexivity|]. split.
  - unfold sig_apply. cbn [g_pval]. rewrite (C41_parity_of_even (fun t => t * t)) by (intros; ring). reflexivity.
  - cbn [g_pval]. split; [intros; ring|]. split; [reflexivity|]. split; [intros v; unfold inverted; cbn; ring|]. exists (0, 0, 0). unfold inverted. cbn [sgnR]. lra.
Qed.
