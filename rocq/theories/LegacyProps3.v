(* C49: normalisation of FunctionalTensorProduct *)
From Coq Require Import Reals Lra Lia List.
From Verif Require Import PyBase PermModel PermProofs IrrepsModel IrrepsProofs IrrepsProofs2 ArrayModel ArrayProofs ArrayOps RechunkProofs ArithProofs BlockProofs LeadModel LeadProofs StackProofs BilinProofs ActProofs EquivProofs EquivProofs2 SumR TPModel LinearModel LinearProofs TPProofs TPProofs2 LinearProps TPProps3 TPProps4 SymProofs2 ArrayProps3 LegacyModel GSProofs LegacyProofs LegacyProofs2 LegacyProofs3 LegacyProofs4 LegacyProofs5 LegacyProofs6 LegacyProofs7 LegacyProofs8 LegacyProps LegacyProps2.
From Verif Require Import EntryProofs.
Import ListNotations.
Open Scope nat_scope.

(* ---------- the number of products that enter an output copy ---------- *)
(* does (copy u of input 1) x (copy v of input 2) enter copy z of the output? *)
Definition feeds (mode : tmode) (m1 m2 : nat) (u v z : nat) : bool :=
  match mode with
  | Uvw => true
  | Uvu => z =? u
  | Uvv => z =? v
  | Uuw => u =? v
  | Uuu => (u =? v) && (z =? u)
  | Uvuv => z =? u * m2 + v
  | UvuLtv => (u <? v) && (z =? pair_rank m1 u v)
  | ULtvw => u <? v
  | MBad => false
  end.
Lemma coefficient_feeds mode hw m1 m2 mo w u v z : feeds mode m1 m2 u v z = false -> coefficient mode hw m1 m2 mo w u v z = 0%R.
Proof. destruct mode; cbn [feeds coefficient]; intros E; try rewrite E; try reflexivity. discriminate. Qed.
Definition one_if (b : bool) : R := if b then 1%R else 0%R.
Lemma feeds_pairs m : forall (g : nat -> nat -> nat -> bool), rsum m (fun u => rsum m (fun v => one_if ((u <? v) && g (pair_rank m u v) u v))) = lsum (enumerate (pairs_lt m)) (fun '(q, (u, v)) => one_if (g q u v)).
Proof. intros g. rewrite (sum_pairs m (fun q u v => one_if (g q u v))). apply rsum_ext. intros u _. apply rsum_ext. intros v _. destruct (u <? v); reflexivity. Qed.
Lemma pairs_count m : length (enumerate (pairs_lt m)) = m * (m - 1) / 2.
Proof. unfold enumerate. rewrite combine_length, seq_length, pairs_lt_length. apply Nat.min_id. Qed.
Lemma feeds_count mode hw m1 m2 mo z : mode_ok mode hw m1 m2 mo -> z < mo ->
  rsum m1 (fun u => rsum m2 (fun v => one_if (feeds mode m1 m2 u v z))) = INR (num_elements (TIns 0 0 0 mode hw 0 None m1 m2 mo)).
Proof.
  intros M Hz. unfold num_elements. cbn [ti_mode ti_m1 ti_m2]. destruct mode; cbn [mode_ok feeds] in *.
  - rewrite mult_INR. rewrite (rsum_ext m1 _ (fun _ => INR m2)) by (intros; rewrite rsum_const; unfold one_if; ring). rewrite rsum_const. reflexivity.
  - subst mo. rewrite (rsum_ext m1 _ (fun u => if z =? u then INR m2 else 0)%R) by (intros u _; destruct (z =? u); cbn [one_if]; [rewrite rsum_const; ring|apply rsum_zero; reflexivity]). apply (rsum_diag m1 z (fun _ => INR m2) Hz).
  - subst mo. rewrite (rsum_ext m1 _ (fun _ => 1%R)) by (intros u _; apply (rsum_diag m2 z (fun _ => 1%R) Hz)). rewrite rsum_const. ring.
  - destruct M as [<- _]. unfold one_if. rewrite (delta2 m1 (fun _ _ => 1%R)). rewrite rsum_const. ring.
  - destruct M as [<- <-]. rewrite (rsum_ext m1 _ (fun u => if z =? u then 1%R else 0%R)). 2:{ intros u Hu. rewrite (rsum_ext m1 _ (fun v => if u =? v then one_if (z =? u) else 0%R)) by (intros v _; destruct (u =? v); reflexivity). rewrite (rsum_diag m1 u) by exact Hu. reflexivity. } rewrite (rsum_diag m1 z (fun _ => 1%R)) by exact Hz. reflexivity.
  - subst mo. assert (N : m2 <> 0) by (intros ->; lia). set (u0 := z / m2). set (v0 := z mod m2). assert (Ez : z = u0 * m2 + v0) by (unfold u0, v0; pose proof (Nat.div_mod z m2 N); lia). assert (Hv : v0 < m2) by (apply Nat.mod_upper_bound, N). assert (Hu : u0 < m1) by (unfold u0; apply Nat.div_lt_upper_bound; [exact N|]; lia).
    rewrite (rsum_ext m1 _ (fun u => if u0 =? u then 1%R else 0%R)); [rewrite (rsum_diag m1 u0 (fun _ => 1%R)) by exact Hu; reflexivity|]. intros u Hu'. rewrite (rsum_ext m2 _ (fun v => if v0 =? v then one_if (u0 =? u) else 0%R)); [rewrite (rsum_diag m2 v0) by exact Hv; reflexivity|].
    intros v Hv'. destruct (Nat.eqb_spec z (u * m2 + v)) as [E|E].
    + assert (u0 = u /\ v0 = v) as [Eu Ev]. { unfold u0, v0. rewrite E. rewrite Nat.div_add_l, Nat.div_small by assumption. split; [lia|]. rewrite Nat.add_comm, Nat.mod_add by exact N. apply Nat.mod_small, Hv'. } rewrite Eu, Ev, !Nat.eqb_refl. reflexivity.
    + destruct (Nat.eqb_spec v0 v) as [Ev|], (Nat.eqb_spec u0 u) as [Eu|]; try reflexivity. exfalso. apply E. rewrite Ez, Eu, Ev. reflexivity.
  - destruct M as [<- M]. rewrite (feeds_pairs m1 (fun q _ _ => z =? q)). rewrite (lsum_ext _ _ (fun '(q, p) => (fun q (_ : nat * nat) => one_if (z =? q)) q p)) by (intros [q [u v]] _; reflexivity). rewrite (lsum_enumerate (pairs_lt m1) (0, 0) (fun q _ => one_if (z =? q))). rewrite pairs_lt_length, M. apply (rsum_diag mo z (fun _ => 1%R) Hz).
  - destruct M as [<- _]. rewrite (rsum_ext m1 _ (fun u => rsum m1 (fun v => one_if ((u <? v) && true)))) by (intros u _; apply rsum_ext; intros v _; rewrite Bool.andb_true_r; reflexivity). rewrite (feeds_pairs m1 (fun _ _ _ => true)). rewrite (lsum_ext _ _ (fun _ => 1%R)) by (intros [q [u v]] _; reflexivity). rewrite lsum_const, pairs_count. unfold half_pairs. ring.
  - destruct M.
Qed.
(* the number of pairs of copies that enter each copy of the output is num_elements *)
Theorem C49_num_elements o z : suits o -> z < ti_mo o -> rsum (ti_m1 o) (fun u => rsum (ti_m2 o) (fun v => one_if (feeds (ti_mode o) (ti_m1 o) (ti_m2 o) u v z))) = INR (num_elements o).
Proof. intros H Hz. exact (feeds_count _ _ _ _ _ _ H Hz). Qed.
(* the place of the weight of (u, v, z) in the row-major weights *)
Definition slot (mode : tmode) (m1 m2 mo : nat) (u v z : nat) : nat :=
  match mode with
  | Uvw => (u * m2 + v) * mo + z
  | Uvu | Uvv => u * m2 + v
  | Uuw => u * mo + z
  | Uuu => u
  | Uvuv | UvuLtv => z
  | ULtvw => pair_rank m1 u v * mo + z
  | MBad => 0
  end.
Lemma digits m a b a' b' : b < m -> b' < m -> a * m + b = a' * m + b' -> a = a' /\ b = b'.
Proof.
  intros H H' E. assert (N : m <> 0) by lia. assert (A : (a * m + b) / m = (a' * m + b') / m) by congruence. rewrite !Nat.div_add_l, !Nat.div_small in A by assumption. split; [lia|]. assert (a = a') by lia. subst a'. lia.
Qed.
Lemma digit_bound m n a b : a < n -> b < m -> a * m + b < n * m.
Proof. intros H H'. pose proof (Nat.mul_le_mono_r (S a) n m H). lia. Qed.
Lemma rank_inj m u v u' v' : u < v < m -> u' < v' < m -> pair_rank m u v = pair_rank m u' v' -> u = u' /\ v = v'.
Proof. intros H H' E. destruct (pairs_lt_nth m u v H) as [A _]. destruct (pairs_lt_nth m u' v' H') as [B _]. rewrite E, B in A. split; congruence. Qed.
(* what does not enter contributes nothing, whatever the weights; what enters is multiplied with a weight of its own *)
Theorem C49_own_weight o w u v z : suits o -> u < ti_m1 o -> v < ti_m2 o -> z < ti_mo o ->
  let f := feeds (ti_mode o) (ti_m1 o) (ti_m2 o) in let s := slot (ti_mode o) (ti_m1 o) (ti_m2 o) (ti_mo o) in
  coefficient (ti_mode o) (ti_hw o) (ti_m1 o) (ti_m2 o) (ti_mo o) w u v z = (if f u v z then if ti_hw o then nth (s u v z) w 0%R else 1%R else 0%R) /\
  (f u v z = true -> s u v z < nprod (path_shape o) /\
     forall u' v' z', u' < ti_m1 o -> v' < ti_m2 o -> z' < ti_mo o -> f u' v' z' = true -> s u v z = s u' v' z' -> u = u' /\ v = v' /\ z = z').
Proof.
  intros M Hu Hv Hz. cbv zeta. revert M Hu Hv Hz. unfold suits, path_shape. generalize (ti_hw o) (ti_m1 o) (ti_m2 o) (ti_mo o). intros hw m1 m2 mo M Hu Hv Hz. destruct (ti_mode o); cbn [mode_ok feeds slot coefficient nprod fold_right] in *; rewrite ?Nat.mul_1_r.
  - rewrite M. split; [reflexivity|]. intros _. split; [rewrite Nat.mul_assoc; apply digit_bound; [apply digit_bound; assumption|assumption]|]. intros u' v' z' Hu' Hv' Hz' _ E. destruct (digits _ _ _ _ _ Hz Hz' E) as [E1 ->]. destruct (digits _ _ _ _ _ Hv Hv' E1) as [-> ->]. auto.
  - split; [destruct hw; reflexivity|]. intros Q. apply Nat.eqb_eq in Q. split; [apply digit_bound; assumption|]. intros u' v' z' Hu' Hv' Hz' Q' E. apply Nat.eqb_eq in Q'. destruct (digits _ _ _ _ _ Hv Hv' E) as [-> ->]. subst. auto.
  - split; [destruct hw; reflexivity|]. intros Q. apply Nat.eqb_eq in Q. split; [apply digit_bound; assumption|]. intros u' v' z' Hu' Hv' Hz' Q' E. apply Nat.eqb_eq in Q'. destruct (digits _ _ _ _ _ Hv Hv' E) as [-> ->]. subst. auto.
  - split; [destruct hw; reflexivity|]. intros Q. apply Nat.eqb_eq in Q. split; [apply digit_bound; assumption|]. intros u' v' z' Hu' Hv' Hz' Q' E. apply Nat.eqb_eq in Q'. destruct (digits _ _ _ _ _ Hz Hz' E) as [-> ->]. subst. auto.
  - split; [destruct hw; reflexivity|]. intros Q. apply andb_true_iff in Q as [Q1 Q2]. apply Nat.eqb_eq in Q1, Q2. split; [exact Hu|]. intros u' v' z' Hu' Hv' Hz' Q' E. apply andb_true_iff in Q' as [Q1' Q2']. apply Nat.eqb_eq in Q1', Q2'. subst. auto.
  - split; [destruct hw; reflexivity|]. intros Q. apply Nat.eqb_eq in Q. split; [lia|]. intros u' v' z' Hu' Hv' Hz' Q' E. apply Nat.eqb_eq in Q'. rewrite E, Q' in Q. destruct (digits _ _ _ _ _ Hv' Hv Q) as [-> ->]. auto.
  - destruct M as [<- M]. split; [destruct hw; reflexivity|]. intros Q. apply andb_true_iff in Q as [Q1 Q2]. apply Nat.ltb_lt in Q1. apply Nat.eqb_eq in Q2. split; [unfold half_pairs; lia|]. intros u' v' z' Hu' Hv' Hz' Q' E. apply andb_true_iff in Q' as [Q1' Q2']. apply Nat.ltb_lt in Q1'. apply Nat.eqb_eq in Q2'. rewrite E, Q2' in Q2. destruct (rank_inj m1 u' v' u v) as [-> ->]; auto.
  - destruct M as [<- ->]. split; [reflexivity|]. intros Q. apply Nat.ltb_lt in Q. split.
    + destruct (pairs_lt_nth m1 u v ltac:(lia)) as [_ B]. apply digit_bound; [exact B|exact Hz].
    + intros u' v' z' Hu' Hv' Hz' Q' E. apply Nat.ltb_lt in Q'. destruct (digits _ _ _ _ _ Hz Hz' E) as [E1 ->]. destruct (rank_inj m1 u v u' v') as [-> ->]; auto.
  - destruct M.
Qed.

Lemma two_digits m n q : q < n * m -> exists a b, a < n /\ b < m /\ q = a * m + b.
Proof.
  intros H. assert (N : m <> 0) by lia. exists (q / m), (q mod m). split; [apply Nat.div_lt_upper_bound; [exact N|]; lia|]. split; [apply Nat.mod_upper_bound, N|]. pose proof (Nat.div_mod q m N). lia.
Qed.
Lemma some_pair m q : q < m * (m - 1) / 2 -> exists u v, u < v < m /\ q = pair_rank m u v.
Proof.
  intros H. destruct (nth q (pairs_lt m) (0, 0)) as [u v] eqn:E. exists u, v. apply rank_of; [rewrite pairs_lt_length; exact H|exact E].
Qed.
(* every weight of the array is used: with C49_own_weight, there are exactly as many weights as (u, v, z) that enter *)
Theorem C49_no_idle_weight o q : suits o -> ti_hw o = true -> q < nprod (path_shape o) ->
  exists u v z, u < ti_m1 o /\ v < ti_m2 o /\ z < ti_mo o /\ feeds (ti_mode o) (ti_m1 o) (ti_m2 o) u v z = true /\ slot (ti_mode o) (ti_m1 o) (ti_m2 o) (ti_mo o) u v z = q.
Proof.
  unfold suits, path_shape. generalize (ti_hw o) (ti_m1 o) (ti_m2 o) (ti_mo o). intros hw m1 m2 mo M _ H. destruct (ti_mode o); cbn [mode_ok feeds slot nprod fold_right] in *; rewrite ?Nat.mul_1_r in *.
  - rewrite Nat.mul_assoc in H. destruct (two_digits _ _ _ H) as (a & z & Ha & Hz & ->). destruct (two_digits _ _ _ Ha) as (u & v & Hu & Hv & ->). exists u, v, z. auto.
  - destruct (two_digits _ _ _ H) as (u & v & Hu & Hv & ->). exists u, v, u. rewrite Nat.eqb_refl. repeat split; try assumption; lia.
  - destruct (two_digits _ _ _ H) as (u & v & Hu & Hv & ->). exists u, v, v. rewrite Nat.eqb_refl. repeat split; try assumption; lia.
  - destruct M as [<- _]. destruct (two_digits _ _ _ H) as (u & z & Hu & Hz & ->). exists u, u, z. rewrite Nat.eqb_refl. auto.
  - destruct M as [<- <-]. exists q, q, q. rewrite Nat.eqb_refl. auto.
  - destruct (two_digits _ _ _ H) as (u & v & Hu & Hv & ->). exists u, v, (u * m2 + v). rewrite Nat.eqb_refl. subst mo. repeat split; assumption.
  - destruct M as [<- M]. unfold half_pairs in H. destruct (some_pair _ _ H) as (u & v & Huv & ->). exists u, v, (pair_rank m1 u v). rewrite Nat.eqb_refl. repeat split; lia.
  - destruct M as [<- _]. unfold half_pairs in H. destruct (two_digits _ _ _ H) as (a & z & Ha & Hz & ->). destruct (some_pair _ _ Ha) as (u & v & Huv & ->). exists u, v, z. repeat split; lia.
  - destruct M.
Qed.

(* ---------- path normalisation ---------- *)
Lemma fpow_split x p : (0 < x)%R -> (fpow x p * fpow x (1 - p) = x)%R.
Proof. intros H. unfold fpow. destruct (Req_EM_T x 0); [lra|]. rewrite <- Rpower_plus. replace (p + (1 - p))%R with 1%R by lra. apply Rpower_1, H. Qed.
Lemma fpow_pos x p : (0 < x)%R -> (0 < fpow x p)%R.
Proof. intros H. unfold fpow. destruct (Req_EM_T x 0); [lra|]. apply exp_pos. Qed.
(* the scale of an instruction at initialisation: path_weight times the standard deviation of the weights *)
Definition scale (o : tinstr) : R := (ti_pw o * (if ti_hw o then match ti_std o with Some s => s | None => 0 end else 1))%R.
(* the variance declared for the entries of an input; 1 by default *)
Definition declared (v : option (list R)) (x : irreps) (i : nat) : R := nth i (var_or v x) 0%R.
(* number of products entering an output copy, weighted with the declared variances *)
Definition gathered (v1 v2 : option (list R)) (x y : irreps) (o : tinstr) : R := (declared v1 x (ti_1 o) * declared v2 y (ti_2 o) * INR (num_elements o))%R.
Definition irrep_factor (nrm : inorm) (x y z : irreps) (o : tinstr) : R :=
  match nrm with
  | NComponent => INR (ir_dim (snd (nth (ti_o o) z d0)))
  | NNorm => INR (ir_dim (snd (nth (ti_1 o) x d0)) * ir_dim (snd (nth (ti_2 o) y d0)))
  | _ => 1%R
  end.
Lemma num_elements_same o o' : same_path o o' -> num_elements o' = num_elements o.
Proof. intros (_ & _ & _ & M & _ & A & B & _). unfold num_elements. rewrite M, A, B. reflexivity. Qed.
Lemma ins_var_same v1 v2 o o' : same_path o o' -> ins_var v1 v2 o' = ins_var v1 v2 o.
Proof. intros H. unfold ins_var. rewrite (num_elements_same _ _ H). destruct H as (-> & -> & _). reflexivity. Qed.
Lemma lsum_filter_same (P : tinstr -> tinstr -> Prop) f (h : tinstr -> R) l l' : (forall a b, P a b -> f a = f b /\ h a = h b) -> Forall2 P l l' -> lsum (filter f l) h = lsum (filter f l') h.
Proof. intros H F. rewrite !lsum_filter. induction F as [|a b l l' Hab F IH]; [reflexivity|]. rewrite !lsum_cons, IH. destruct (H a b Hab) as [-> ->]. reflexivity. Qed.
Lemma alpha_sqrt a g : (0 < a)%R -> (fpow (sqrt a) g * fpow (sqrt a) (1 - g) = sqrt a)%R.
Proof. intros H. apply fpow_split, sqrt_lt_R0, H. Qed.
Lemma scale_zero g : (g = 0 \/ g = 1 -> fpow (sqrt 0) g * fpow (sqrt 0) (1 - g) = sqrt 0)%R.
Proof. intros H. rewrite sqrt_0. unfold fpow. destruct (Req_EM_T 0 0); [|lra]. destruct (Req_EM_T g 0), (Req_EM_T (1 - g) 0); try lra. Qed.
Lemma fpow_zero_split g : (fpow 0 g * fpow 0 (1 - g) = 0)%R.
Proof. unfold fpow. destruct (Req_EM_T 0 0); [|lra]. destruct (Req_EM_T g 0), (Req_EM_T (1 - g) 0); lra. Qed.
Lemma scale_sq a g : (0 <= a)%R -> ((fpow (sqrt a) g * fpow (sqrt a) (1 - g)) ^ 2 = a)%R.
Proof.
  intros [H|H]; [rewrite alpha_sqrt by exact H; apply pow2_sqrt; lra|]. rewrite <- H, sqrt_0, fpow_zero_split. ring.
Qed.
Lemma Forall2_weaken {A B} (P Q : A -> B -> Prop) l m : (forall a b, P a b -> Q a b) -> Forall2 P l m -> Forall2 Q l m.
Proof. intros H. induction 1; constructor; auto. Qed.
Lemma Forall2_of_r {A B} (P : A -> B -> Prop) l m b : Forall2 P l m -> In b m -> exists a, In a l /\ P a b.
Proof. induction 1 as [|a b' l m H F IH]; intros Hb; [destruct Hb|]. destruct Hb as [->|Hb]; [exists a; split; [apply in_eq|exact H]|]. destruct (IH Hb) as (a' & Ha & Pa). exists a'. split; [right; exact Ha|exact Pa]. Qed.
Lemma Forall2_in_r {A B} (P : A -> B -> Prop) l m : Forall2 P l m -> Forall2 (fun a b => In b m /\ P a b) l m.
Proof. induction 1 as [|a b l m H F IH]; constructor; [split; [apply in_eq|exact H]|]. eapply Forall2_weaken; [|exact IH]. cbv beta. intros a' b' [H1 H2]. split; [right; exact H1|exact H2]. Qed.
(* the share of the variance of its output that an instruction contributes.  For "element" normalisation (pn = 0) the shares are
   proportional to the number of products, for "path" normalisation (pn = 1) they are equal *)
Theorem C49_share x y z us v1 v2 vo nrm pn gn T : functional_tp x y z us v1 v2 vo nrm pn gn = Ok T -> Forall (fun o => (0 < gathered v1 v2 x y o)%R) (tp_ins T) ->
  Forall2 (fun u o => (gathered v1 v2 x y o * scale o ^ 2 = irrep_factor nrm x y z o * declared vo z (ti_o o) * weight_of u *
      (fpow (gathered v1 v2 x y o) (1 - pn) / lsum (filter (fun o' => ti_o o' =? ti_o o) (tp_ins T)) (fun o' => fpow (gathered v1 v2 x y o') (1 - pn))))%R) us (tp_ins T).
Proof.
  intros E HG. destruct (constructor_inv _ _ _ _ _ _ _ _ _ _ _ E) as (ins & Em & Ex & Ey & Ez & _ & Fu & _). pose proof Fu as F0. apply mapM_all in Em.
  assert (SP : Forall2 same_path ins (tp_ins T)). { clear -Fu. induction Fu as [|o o' l l' Ho F IH]; constructor; [|exact IH]. apply (update_ok _ _ _ _ _ _ _ _ _ _ _ _ Ho). }
  assert (S : forall j, lsum (filter (fun o' => ti_o o' =? j) ins) (fun o' => fpow (ins_var (var_or v1 x) (var_or v2 y) o') (1 - pn)) = lsum (filter (fun o' => ti_o o' =? j) (tp_ins T)) (fun o' => fpow (gathered v1 v2 x y o') (1 - pn))).
  { intros j. apply (lsum_filter_same same_path); [|exact SP]. intros a b H. unfold gathered, declared. fold (ins_var (var_or v1 x) (var_or v2 y) b). rewrite (ins_var_same _ _ _ _ H). split; [|reflexivity]. destruct H as (_ & _ & -> & _). reflexivity. }
  assert (POS : forall o, In o (tp_ins T) -> (0 < lsum (filter (fun o' => ti_o o' =? ti_o o) (tp_ins T)) (fun o' => fpow (gathered v1 v2 x y o') (1 - pn)))%R).
  { intros o Ho. apply (lsum_pos _ _ o); [intros; apply fpow_nonneg|apply filter_In; split; [exact Ho|apply Nat.eqb_refl]|]. apply fpow_pos. rewrite Forall_forall in HG. apply HG, Ho. }
  assert (K : Forall2 (fun u o => exists o0, make_ins x y z u = Ok o0 /\ update x y z (var_or v1 x) (var_or v2 y) (var_or vo z) nrm pn gn ins o0 = Ok o) us (tp_ins T)).
  { eapply Forall2_comp; [|exact Em|exact Fu]. cbv beta. intros u o0 o H1 H2. exists o0. split; assumption. }
  assert (K' : Forall2 (fun u o => In o (tp_ins T) /\ exists o0, make_ins x y z u = Ok o0 /\ update x y z (var_or v1 x) (var_or v2 y) (var_or vo z) nrm pn gn ins o0 = Ok o) us (tp_ins T)).
  { exact (Forall2_in_r _ _ _ K). }
  clear K. eapply Forall2_weaken; [|exact K']. clear K'. cbv beta. intros u o (Hin & o0 & Hu & Ho). destruct (make_ins_ok _ _ _ _ _ Hu) as (i1 & i2 & io & m & hw & pw & -> & B1 & B2 & B3 & Nb & E0).
  destruct (update_ok _ _ _ _ _ _ _ _ _ _ _ _ Ho) as (SO & Nn & _ & _ & AP & PW). assert (A : (scale o ^ 2 = ins_alpha x y z (var_or v1 x) (var_or v2 y) (var_or vo z) nrm pn ins o0)%R).
  { unfold scale. destruct SO as (_ & _ & _ & _ & Hh & _). rewrite Hh. destruct (ti_hw o0); [destruct PW as [-> ->]; apply scale_sq, AP|]. rewrite PW, Rmult_1_r. apply pow2_sqrt, AP. }
  rewrite A. unfold ins_alpha. cbv zeta. unfold path_factor. rewrite S. assert (G : ins_var (var_or v1 x) (var_or v2 y) o0 = gathered v1 v2 x y o) by (rewrite <- (ins_var_same _ _ _ _ SO); reflexivity). rewrite G.
  destruct SO as (S1 & S2 & S3 & _). rewrite <- S1, <- S2, <- S3. pose proof (POS o Hin) as P. rewrite Forall_forall in HG. pose proof (HG o Hin) as P1. pose proof (fpow_pos _ pn P1) as P2. pose proof (fpow_split _ pn P1) as SPL.
  destruct (Rlt_dec 0 _) as [_|N]; [|exfalso; apply N, Rmult_lt_0_compat; assumption]. replace (ti_pw o0) with (weight_of (i1, i2, io, m, hw, pw)) by (rewrite E0; reflexivity). unfold declared, entry_of. change (0, Irrep 0 Even) with d0.
  replace (match nrm with NComponent => _ | NNorm => _ | _ => _ end) with (irrep_factor nrm x y z o) by (destruct nrm; reflexivity).
  set (g := gathered v1 v2 x y o) in *. set (Sm := lsum _ _) in *. clearbody Sm. rewrite <- SPL at 1. field. split; lra.
Qed.
(* with unit path weights the shares of an output add up to its declared variance *)
Theorem C49_total_share x y z us v1 v2 vo nrm pn gn T j : functional_tp x y z us v1 v2 vo nrm pn gn = Ok T -> Forall (fun o => (0 < gathered v1 v2 x y o)%R) (tp_ins T) -> Forall (fun u => weight_of u = 1%R) us ->
  (exists o, In o (tp_ins T) /\ ti_o o = j) ->
  lsum (tp_ins T) (fun o => if ti_o o =? j then gathered v1 v2 x y o * scale o ^ 2 / irrep_factor nrm x y z o else 0)%R = declared vo z j.
Proof.
  intros E HG HW (o0 & Ho0 & Ej). pose proof (C49_share _ _ _ _ _ _ _ _ _ _ _ E HG) as F. set (Sm := lsum (filter (fun o' => ti_o o' =? j) (tp_ins T)) (fun o' => fpow (gathered v1 v2 x y o') (1 - pn))).
  assert (P : (0 < Sm)%R). { apply (lsum_pos _ _ o0); [intros; apply fpow_nonneg|apply filter_In; split; [exact Ho0|rewrite Ej; apply Nat.eqb_refl]|]. apply fpow_pos. rewrite Forall_forall in HG. apply HG, Ho0. }
  assert (HI : forall o, (0 < irrep_factor nrm x y z o)%R). { intros o. unfold irrep_factor. destruct nrm; try lra; apply lt_0_INR; unfold ir_dim; lia. }
  transitivity (lsum (tp_ins T) (fun o => if ti_o o =? j then declared vo z j * (fpow (gathered v1 v2 x y o) (1 - pn) / Sm) else 0)%R).
  - apply lsum_ext. intros o Ho. destruct (Nat.eqb_spec (ti_o o) j) as [Eo|]; [|reflexivity].
    assert (Q : exists u, In u us /\ (gathered v1 v2 x y o * scale o ^ 2 = irrep_factor nrm x y z o * declared vo z (ti_o o) * weight_of u * (fpow (gathered v1 v2 x y o) (1 - pn) / lsum (filter (fun o' => ti_o o' =? ti_o o) (tp_ins T)) (fun o' => fpow (gathered v1 v2 x y o') (1 - pn))))%R).
    { exact (Forall2_of_r _ _ _ o F Ho). }
    destruct Q as (u & Hu & Q). rewrite Forall_forall in HW. rewrite (HW u Hu), Eo in Q. fold Sm in Q. rewrite Q. pose proof (HI o). field. split; lra.
  - rewrite <- (lsum_filter (fun o => ti_o o =? j) (tp_ins T)). rewrite lsum_scal. unfold Rdiv. rewrite lsum_scal_r. fold Sm. field. lra.
Qed.
