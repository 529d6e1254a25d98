(* C33: scatter_sum, scatter_mean, scatter_max.
   [all_idx dsh] lists the multi-indices of an array of shape dsh; [landing dsh p] are those that satisfy p. *)
From Coq Require Import Reals Lra Permutation.
From Verif Require Import PyBase PermModel PermProofs IrrepsModel IrrepsProofs IrrepsProofs2 ArrayModel ArrayProofs ArrayOps RechunkProofs ArithProofs BlockProofs LeadModel LeadProofs StackProofs ActProofs EquivProofs EquivProofs2 SumR LinearProofs ArrayProps3 ScatterModel.
Open Scope nat_scope.

Definition landing (dsh : shape) (p : idx -> bool) : list idx := filter p (all_idx dsh).

Lemma all_idx_length s : length (all_idx s) = prod s.
Proof.
  induction s as [|d s IH]; [reflexivity|]. cbn [all_idx]. change (prod (d :: s)) with (d * prod s). rewrite <- IH. generalize 0. induction d as [|d IHd]; intros o; [reflexivity|]. cbn [seq flat_map]. rewrite app_length, map_length, IHd. reflexivity.
Qed.
Lemma all_idx_nodup s : NoDup (all_idx s).
Proof.
  induction s as [|d s IH]; [repeat constructor; intros []|]. cbn [all_idx]. generalize 0. induction d as [|d IHd]; intros o; [constructor|]. cbn [seq flat_map].
  assert (D : forall (p q : list idx), NoDup p -> NoDup q -> (forall b, In b p -> In b q -> False) -> NoDup (p ++ q)).
  { clear. induction p as [|b p IHp]; intros q Hp Hq D; [exact Hq|]. inversion Hp; subst. cbn [app]. constructor; [|apply IHp; auto; intros c Hc; apply (D c); right; exact Hc]. rewrite in_app_iff. intros [Q|Q]; [contradiction|]. apply (D b); [left; reflexivity|exact Q]. }
  apply D; [apply FinFun.Injective_map_NoDup; [intros a b Q; congruence|exact IH]|apply IHd|].
  intros b Hb Hb'. apply in_map_iff in Hb as (t & <- & _). apply in_flat_map in Hb' as (k & Hk & Hb'). apply in_map_iff in Hb' as (t' & Q & _). injection Q as -> _. apply in_seq in Hk. lia.
Qed.
(* every element is listed exactly once *)
Theorem C33_landing dsh p : NoDup (landing dsh p) /\ forall i, In i (landing dsh p) <-> valid dsh i /\ p i = true.
Proof. split; [apply NoDup_filter, all_idx_nodup|]. intros i. unfold landing. rewrite filter_In, all_idx_valid. reflexivity. Qed.

(* ---------- one output number ---------- *)
Lemma map_op_nth {A} (op : A -> A -> A) (u v : list A) c d : length u = length v -> c < length u -> nth c (map (fun '(x, y) => op x y) (combine u v)) d = op (nth c u d) (nth c v d).
Proof. revert v c. induction u as [|a u IH]; intros [|b v] c L H; try discriminate; [cbn in H; lia|]. destruct c as [|c]; [reflexivity|]. cbn [combine map nth]. apply IH; cbn in *; lia. Qed.
Definition hits (dst : idx -> option nat) (k : nat) (j : idx) : bool := match dst j with Some k' => k' =? k | None => false end.
Lemma update_rows_length {A} (op : A -> A -> A) w order dst a k r init : length init = w -> (forall j, In j order -> length (a (j ++ r)) = w) -> length (update_rows op order dst a k r init) = w.
Proof.
  unfold update_rows. revert init. induction order as [|j order IH]; intros init L H; [exact L|]. cbn [fold_left]. apply IH; [|intros; apply H, in_cons; assumption]. destruct (match dst j with Some k' => _ | None => _ end); [|exact L]. rewrite map_length, combine_length, (H j), L by apply in_eq. apply Nat.min_id.
Qed.
Lemma update_rows_nth {A} (op : A -> A -> A) w order dst a k r init c d : length init = w -> (forall j, In j order -> length (a (j ++ r)) = w) -> c < w ->
  nth c (update_rows op order dst a k r init) d = fold_left (fun acc j => op acc (nth c (a (j ++ r)) d)) (filter (hits dst k) order) (nth c init d).
Proof.
  unfold update_rows, hits. revert init. induction order as [|j order IH]; intros init L H Hc; [reflexivity|]. cbn [fold_left filter]. rewrite IH; [|destruct (match dst j with Some k' => _ | None => _ end); [rewrite map_length, combine_length, (H j), L by apply in_eq; apply Nat.min_id|exact L]|intros; apply H, in_cons; assumption|exact Hc].
  destruct (match dst j with Some k' => _ | None => _ end); [|reflexivity]. cbn [fold_left]. rewrite map_op_nth; [reflexivity|rewrite (H j) by apply in_eq; exact L|lia].
Qed.
Lemma fold_plus {A} (l : list A) f c : fold_left (fun acc j => acc + f j)%R l c = (c + lsum l f)%R.
Proof. revert c. induction l as [|a l IH]; intros c; [cbn; lra|]. cbn [fold_left]. rewrite IH, lsum_cons. lra. Qed.
Lemma scatter_rows_nth w dsh dst a k r c : (forall j, valid dsh j -> length (a (j ++ r)) = w) -> c < w ->
  nth c (scatter_rows Rplus 0%R w dsh dst a (k :: r)) 0%R = lsum (landing dsh (hits dst k)) (fun i => nth c (a (i ++ r)) 0%R).
Proof.
  intros L Hc. unfold scatter_rows. rewrite (update_rows_nth Rplus w) by (auto using repeat_length; intros j Hj; apply L, all_idx_valid, Hj). rewrite fold_plus, nth_repeat. unfold landing. lra.
Qed.
Lemma scatter_rows_sum w dsh dst a k r : (forall j, valid dsh j -> length (a (j ++ r)) = w) ->
  scatter_rows Rplus 0%R w dsh dst a (k :: r) = rowsum w (map (fun i => a (i ++ r)) (landing dsh (hits dst k))).
Proof.
  intros L. assert (F : Forall (fun q => length q = w) (map (fun i => a (i ++ r)) (landing dsh (hits dst k)))) by (apply Forall_map, Forall_forall; intros i Hi; apply L; apply filter_In in Hi as [Hi _]; apply all_idx_valid, Hi).
  assert (L1 : length (scatter_rows Rplus 0%R w dsh dst a (k :: r)) = w) by (apply update_rows_length; [apply repeat_length|intros j Hj; apply L, all_idx_valid, Hj]).
  apply (nth_ext _ _ 0%R 0%R); [rewrite L1, rowsum_length by exact F; reflexivity|]. rewrite L1. intros c Hc. rewrite scatter_rows_nth by assumption. rewrite nth_rowsum by assumption. rewrite map_map. unfold lsum. generalize (landing dsh (hits dst k)). intros l. induction l as [|i l IH]; [reflexivity|]. cbn [map fold_right]. rewrite IH. reflexivity.
Qed.
(* the updates may be applied in any order *)
Theorem C33_any_order dsh order (dst : idx -> option nat) (a : idx -> list R) k r w : (forall j, valid dsh j -> length (a (j ++ r)) = w) -> Permutation order (all_idx dsh) ->
  update_rows Rplus order dst a k r (repeat 0%R w) = update_rows Rplus (all_idx dsh) dst a k r (repeat 0%R w) /\
  forall init, update_rows Rmax order dst a k r (repeat init w) = update_rows Rmax (all_idx dsh) dst a k r (repeat init w).
Proof.
  intros L P. assert (H1 : forall j, In j order -> length (a (j ++ r)) = w) by (intros j Hj; apply L, all_idx_valid; rewrite <- P; exact Hj). assert (H2 : forall j, In j (all_idx dsh) -> length (a (j ++ r)) = w) by (intros j Hj; apply L, all_idx_valid, Hj).
  assert (PF : Permutation (filter (hits dst k) order) (filter (hits dst k) (all_idx dsh))) by (clear -P; induction P; cbn [filter]; try constructor; try (destruct (hits dst k x)); try (destruct (hits dst k y)); eauto using Permutation).
  assert (G : forall op : R -> R -> R, (forall u v z, op (op u v) z = op (op u z) v) -> forall init, update_rows op order dst a k r (repeat init w) = update_rows op (all_idx dsh) dst a k r (repeat init w)).
  { intros op C init. apply (nth_ext _ _ 0%R 0%R); [rewrite !(update_rows_length op w); auto using repeat_length|]. rewrite (update_rows_length op w) by auto using repeat_length. intros c Hc. rewrite !(update_rows_nth op w) by auto using repeat_length.
    generalize (nth c (repeat init w) 0%R). clear -PF C. induction PF as [|x l l' P IH|x y l|l l' l'' P1 IH1 P2 IH2]; intros s; cbn [fold_left]; auto; [rewrite C; reflexivity|rewrite IH1; apply IH2]. }
  split; [apply G; intros; ring|]. intros init. apply G. intros. rewrite <- !Rmax_assoc, (Rmax_comm v z). reflexivity.
Qed.

(* ---------- where an index lands ---------- *)
Theorem C33_index md n z k : resolve_index md n z = Some k <->
  k < n /\ (z = Z.of_nat k \/ z = Z.of_nat k - Z.of_nat n \/ md = MClip /\ (k = (n - 1)%nat /\ Z.of_nat n <= z \/ k = 0%nat /\ z < - Z.of_nat n))%Z.
Proof.
  unfold resolve_index. set (z' := if (z <? 0)%Z then (z + Z.of_nat n)%Z else z). assert (Hz : (z < 0 /\ z' = z + Z.of_nat n \/ 0 <= z /\ z' = z)%Z) by (unfold z'; destruct (Z.ltb_spec z 0); auto). clearbody z'.
  destruct (Z.leb_spec 0 z') as [A|A], (Z.ltb_spec z' (Z.of_nat n)) as [B|B]; cbn [andb].
  - split; [intros Q; injection Q as <-; lia|]. intros (Hk & H). f_equal. destruct H as [H|[H|(_ & H)]]; lia.
  - destruct md; try (split; [discriminate|intros (Hk & [H|[H|(H & _)]]); [lia|lia|discriminate]]). destruct (Nat.eqb_spec n 0); [split; [discriminate|lia]|]. destruct (Z.ltb_spec z' 0) as [N|N]; [lia|]. split.
    + intros Q. injection Q as <-. split; [lia|]. right. right. split; [reflexivity|]. lia.
    + intros (Hk & H). f_equal. destruct H as [H|[H|(_ & H)]]; lia.
  - destruct md; try (split; [discriminate|intros (Hk & [H|[H|(H & _)]]); [lia|lia|discriminate]]). destruct (Nat.eqb_spec n 0); [split; [discriminate|lia]|]. destruct (Z.ltb_spec z' 0) as [N|N]; [|lia]. split.
    + intros Q. injection Q as <-. split; [lia|]. right. right. split; [reflexivity|]. lia.
    + intros (Hk & H'). f_equal. destruct H' as [H'|[H'|(_ & H')]]; lia.
  - lia.
Qed.
Lemma hits_in_range md n (dst : idx -> Z) dsh k : (forall i, valid dsh i -> 0 <= dst i < Z.of_nat n)%Z ->
  landing dsh (hits (fun i => resolve_index md n (dst i)) k) = landing dsh (fun i => dst i =? Z.of_nat k)%Z.
Proof.
  intros H. apply filter_ext_in. intros i Hi. apply all_idx_valid, H in Hi. unfold hits, resolve_index. destruct (Z.ltb_spec (dst i) 0); [lia|]. destruct (Z.leb_spec 0 (dst i)), (Z.ltb_spec (dst i) (Z.of_nat n)); try lia. cbn [andb]. destruct (Nat.eqb_spec (Z.to_nat (dst i)) k), (Z.eqb_spec (dst i) (Z.of_nat k)); try reflexivity; lia.
Qed.

(* ---------- scatter_sum with dst ---------- *)
Lemma prefix_ok dsh r : is_prefix dsh (dsh ++ r) = true.
Proof. unfold is_prefix. rewrite firstn_app, Nat.sub_diag, firstn_all, app_nil_r. apply list_eqb_eq. reflexivity. Qed.
Lemma skip_prefix {A} (d r : list A) : skipn (length d) (d ++ r) = r.
Proof. rewrite skipn_app, skipn_all, Nat.sub_diag. reflexivity. Qed.
Lemma scatter_sum_dst md x dsh r dst n : coherent x -> lead x = dsh ++ r ->
  yields (scatter_sum x (Dst dsh dst) (Some n) false md) (irr x) (n :: r) (fun i => rowsum (dim (irr x)) (map (fun j => arr x (j ++ tl i)) (landing dsh (hits (fun j => resolve_index md n (dst j)) (hd 0 i))))).
Proof.
  intros Hx E. unfold scatter_sum, scatter_irreps, scatter_op. cbn [bind]. rewrite E, prefix_ok, skip_prefix. cbn [negb bind].
  assert (Q : forall i, valid (n :: r) i -> scatter_rows Rplus 0%R (dim (irr x)) dsh (fun j => resolve_index md n (dst j)) (arr x) i = rowsum (dim (irr x)) (map (fun j => arr x (j ++ tl i)) (landing dsh (hits (fun j => resolve_index md n (dst j)) (hd 0 i))))).
  { intros i Hi. inversion Hi as [|k ? j ? Hk Hj]; subst. cbn [hd tl]. apply scatter_rows_sum. intros q Hq. apply Hx. rewrite E. apply valid_app; assumption. }
  eapply yields_ext; [exact Q|]. apply new_yields. intros i Hi. rewrite Q by exact Hi. apply rowsum_length. apply Forall_map, Forall_forall. intros j Hj. apply filter_In in Hj as [Hj _]. apply Hx. rewrite E. apply valid_app; [apply all_idx_valid, Hj|]. inversion Hi; assumption.
Qed.
Lemma nth_rowsum_lsum {A} w c (f : A -> list R) l : (forall a, In a l -> length (f a) = w) -> c < w -> nth c (rowsum w (map f l)) 0%R = lsum l (fun a => nth c (f a) 0%R).
Proof. intros H Hc. rewrite nth_rowsum by (auto; apply Forall_map, Forall_forall; exact H). rewrite map_map. unfold lsum. clear H. induction l as [|i l IH]; [reflexivity|]. cbn [map fold_right]. rewrite IH. reflexivity. Qed.
(* output[k] is the sum of the data[i] with dst[i] = k *)
Theorem C33_sum md x dsh r dst n : coherent x -> lead x = dsh ++ r -> (forall i, valid dsh i -> 0 <= dst i < Z.of_nat n)%Z ->
  exists z, scatter_sum x (Dst dsh dst) (Some n) false md = Ok z /\ irr z = irr x /\ lead z = n :: r /\ coherent z /\
    forall k j c, k < n -> valid r j -> c < dim (irr x) -> nth c (arr z (k :: j)) 0%R = lsum (landing dsh (fun i => dst i =? Z.of_nat k)%Z) (fun i => nth c (arr x (i ++ j)) 0%R).
Proof.
  intros Hx E H. destruct (scatter_sum_dst md x dsh r dst n Hx E) as (z & Ez & Z1 & Z2 & Z3 & Z4). exists z. split; [exact Ez|]. split; [exact Z1|]. split; [exact Z2|]. split; [exact Z3|].
  intros k j c Hk Hj Hc. rewrite Z4 by (constructor; assumption). cbn [hd tl]. rewrite hits_in_range by exact H. apply nth_rowsum_lsum; [|exact Hc]. intros i Hi. apply filter_In in Hi as [Hi _]. apply Hx. rewrite E. apply valid_app; [apply all_idx_valid, Hi|exact Hj].
Qed.
(* any indices and any mode: entries land as described by C33_index *)
Theorem C33_sum_modes md x dsh r dst n : coherent x -> lead x = dsh ++ r ->
  exists z, scatter_sum x (Dst dsh dst) (Some n) false md = Ok z /\ irr z = irr x /\ lead z = n :: r /\ coherent z /\
    forall k j c, k < n -> valid r j -> c < dim (irr x) -> nth c (arr z (k :: j)) 0%R = lsum (landing dsh (fun i => match resolve_index md n (dst i) with Some k' => k' =? k | None => false end)) (fun i => nth c (arr x (i ++ j)) 0%R).
Proof.
  intros Hx E. destruct (scatter_sum_dst md x dsh r dst n Hx E) as (z & Ez & Z1 & Z2 & Z3 & Z4). exists z. split; [exact Ez|]. split; [exact Z1|]. split; [exact Z2|]. split; [exact Z3|].
  intros k j c Hk Hj Hc. rewrite Z4 by (constructor; assumption). cbn [hd tl]. apply nth_rowsum_lsum; [|exact Hc]. intros i Hi. apply filter_In in Hi as [Hi _]. apply Hx. rewrite E. apply valid_app; [apply all_idx_valid, Hi|exact Hj].
Qed.
Theorem C33_sum_equivariant D md x dsh r dst n : rep_ok D -> coherent x -> lead x = dsh ++ r ->
  agree (let! z := scatter_sum x (Dst dsh dst) (Some n) false md in transform D z) (let! u := transform D x in scatter_sum u (Dst dsh dst) (Some n) false md).
Proof.
  intros HD Hx E. apply (commute D (fun y => scatter_sum y (Dst dsh dst) (Some n) false md) x (irr x) (n :: r) (fun a i => rowsum (dim (irr x)) (map (fun j => a (j ++ tl i)) (landing dsh (hits (fun j => resolve_index md n (dst j)) (hd 0 i)))))); auto.
  - intros y Hy E1 E2 _. rewrite <- E1. apply scatter_sum_dst; [exact Hy|congruence].
  - intros a b i Hi Q. f_equal. apply map_ext_in. intros j Hj. apply filter_In in Hj as [Hj _]. apply Q. rewrite E. apply valid_app; [apply all_idx_valid, Hj|]. inversion Hi; assumption.
  - intros a i Hi La. rewrite act_rowsum, map_map; [reflexivity|exact HD|]. apply Forall_map, Forall_forall. intros j Hj. apply filter_In in Hj as [Hj _]. apply La. rewrite E. apply valid_app; [apply all_idx_valid, Hj|]. inversion Hi; assumption.
Qed.

(* ---------- map_back ---------- *)
Lemma insert_set_in z l a : In a (insert_set z l) <-> a = z \/ In a l.
Proof.
  induction l as [|b l IH]; [cbn; intuition congruence|]. cbn [insert_set]. destruct (Z.ltb_spec z b); [cbn; intuition congruence|]. destruct (Z.eqb_spec z b) as [->|]; [cbn; intuition congruence|]. cbn [In]. rewrite IH. intuition congruence.
Qed.
Lemma unique_values_in l a : In a (unique_values l) <-> In a l.
Proof. induction l as [|b l IH]; [reflexivity|]. cbn [unique_values fold_right]. rewrite insert_set_in. cbn [In]. unfold unique_values in IH. rewrite IH. intuition congruence. Qed.
Lemma insert_set_length z l : length (insert_set z l) <= S (length l).
Proof. induction l as [|b l IH]; [cbn; lia|]. cbn [insert_set]. destruct (z <? b)%Z; [cbn; lia|]. destruct (z =? b)%Z; cbn [length]; lia. Qed.
Lemma unique_values_length l : length (unique_values l) <= length l.
Proof. induction l as [|b l IH]; [cbn; lia|]. cbn [unique_values fold_right]. pose proof (insert_set_length b (fold_right insert_set [] l)). unfold unique_values in IH. cbn [length]. lia. Qed.
Lemma position_nth z l : In z l -> position z l < length l /\ nth (position z l) l 0%Z = z.
Proof. induction l as [|a l IH]; [intros []|]. intros H. cbn [position]. destruct (Z.eqb_spec z a) as [->|N]; [split; [cbn; lia|reflexivity]|]. destruct H as [->|H]; [contradiction|]. destruct (IH H). split; [cbn; lia|assumption]. Qed.
Lemma distinct_spec dsh dst : (forall i, valid dsh i -> 0 <= distinct_but_small dsh dst i < Z.of_nat (prod dsh))%Z /\ forall i j, valid dsh i -> valid dsh j -> (distinct_but_small dsh dst i = distinct_but_small dsh dst j <-> dst i = dst j).
Proof.
  unfold distinct_but_small. set (u := unique_values (map dst (all_idx dsh))). assert (I : forall i, valid dsh i -> In (dst i) u) by (intros i Hi; apply unique_values_in, in_map, all_idx_valid, Hi).
  assert (L : length u <= prod dsh) by (rewrite <- all_idx_length, <- (map_length dst); apply unique_values_length). split.
  - intros i Hi. destruct (position_nth _ _ (I i Hi)). lia.
  - intros i j Hi Hj. split; [|intros ->; reflexivity]. intros Q. apply Nat2Z.inj in Q. destruct (position_nth _ _ (I i Hi)) as [_ E1], (position_nth _ _ (I j Hj)) as [_ E2]. rewrite <- E1, <- E2, Q. reflexivity.
Qed.
Lemma firstn_prefix {A} (d r : list A) : firstn (length d) (d ++ r) = d.
Proof. rewrite firstn_app, Nat.sub_diag, firstn_all, app_nil_r. reflexivity. Qed.
Lemma valid_length s i : valid s i -> length i = length s.
Proof. apply Forall2_length. Qed.
Lemma scatter_back_landing md dsh dst i : valid dsh i -> landing dsh (hits (fun j => resolve_index md (prod dsh) (distinct_but_small dsh dst j)) (Z.to_nat (distinct_but_small dsh dst i))) = landing dsh (fun j => dst j =? dst i)%Z.
Proof.
  intros Hi. destruct (distinct_spec dsh dst) as [R I]. rewrite hits_in_range by exact R. apply filter_ext_in. intros j Hj. apply all_idx_valid in Hj. rewrite Z2Nat.id by (apply R, Hi). destruct (Z.eqb_spec (dst j) (dst i)) as [Q|Q]; [apply Z.eqb_eq, I; assumption|]. apply Z.eqb_neq. intros Q'. apply Q, I; assumption.
Qed.
Lemma scatter_sum_back md x dsh r dst : coherent x -> lead x = dsh ++ r ->
  yields (scatter_sum x (Dst dsh dst) None true md) (irr x) (dsh ++ r) (fun i => rowsum (dim (irr x)) (map (fun j => arr x (j ++ skipn (length dsh) i)) (landing dsh (fun j => dst j =? dst (firstn (length dsh) i))%Z))).
Proof.
  intros Hx E. unfold scatter_sum, scatter_irreps, scatter_op. cbn [bind]. rewrite E, prefix_ok. cbn [negb bind].
  assert (Q : forall i, valid (dsh ++ r) i -> scatter_rows Rplus 0%R (dim (irr x)) dsh (fun j => resolve_index md (prod dsh) (distinct_but_small dsh dst j)) (arr x) (Z.to_nat (distinct_but_small dsh dst (firstn (length dsh) i)) :: skipn (length dsh) i) = rowsum (dim (irr x)) (map (fun j => arr x (j ++ skipn (length dsh) i)) (landing dsh (fun j => dst j =? dst (firstn (length dsh) i))%Z))).
  { intros i Hi. apply valid_app_inv in Hi as (p & q & -> & Hp & Hq). rewrite <- (valid_length _ _ Hp), firstn_prefix, skip_prefix. rewrite scatter_rows_sum by (intros t Ht; apply Hx; rewrite E; apply valid_app; assumption). rewrite scatter_back_landing by exact Hp. reflexivity. }
  eapply yields_ext; [exact Q|]. apply new_yields. intros i Hi. rewrite Q by exact Hi. apply rowsum_length. apply Forall_map, Forall_forall. intros j Hj. apply filter_In in Hj as [Hj _]. apply Hx. rewrite E. apply valid_app_inv in Hi as (p & q & -> & Hp & Hq). rewrite <- (valid_length _ _ Hp), skip_prefix. apply valid_app; [apply all_idx_valid, Hj|exact Hq].
Qed.
(* map_back: position i receives the sum over all positions with the same label; the labels may be any integers *)
Theorem C33_map_back md x dsh r dst : coherent x -> lead x = dsh ++ r ->
  exists z, scatter_sum x (Dst dsh dst) None true md = Ok z /\ irr z = irr x /\ lead z = lead x /\ coherent z /\
    forall i j c, valid dsh i -> valid r j -> c < dim (irr x) -> nth c (arr z (i ++ j)) 0%R = lsum (landing dsh (fun i' => dst i' =? dst i)%Z) (fun i' => nth c (arr x (i' ++ j)) 0%R).
Proof.
  intros Hx E. destruct (scatter_sum_back md x dsh r dst Hx E) as (z & Ez & Z1 & Z2 & Z3 & Z4). exists z. split; [exact Ez|]. split; [exact Z1|]. split; [congruence|]. split; [exact Z3|].
  intros i j c Hi Hj Hc. rewrite Z4 by (apply valid_app; assumption). rewrite <- (valid_length _ _ Hi), firstn_prefix, skip_prefix. apply nth_rowsum_lsum; [|exact Hc]. intros t Ht. apply filter_In in Ht as [Ht _]. apply Hx. rewrite E. apply valid_app; [apply all_idx_valid, Ht|exact Hj].
Qed.
(* map_back gathers the plain result *)
Theorem C33_map_back_gathers md x dsh r dst n : coherent x -> lead x = dsh ++ r -> (forall i, valid dsh i -> 0 <= dst i < Z.of_nat n)%Z ->
  exists z b, scatter_sum x (Dst dsh dst) (Some n) false md = Ok z /\ scatter_sum x (Dst dsh dst) None true md = Ok b /\ forall i j, valid dsh i -> valid r j -> arr b (i ++ j) = arr z (Z.to_nat (dst i) :: j).
Proof.
  intros Hx E H. destruct (scatter_sum_dst md x dsh r dst n Hx E) as (z & Ez & _ & _ & _ & Z4). destruct (scatter_sum_back md x dsh r dst Hx E) as (b & Eb & _ & _ & _ & B4). exists z, b. split; [exact Ez|]. split; [exact Eb|].
  intros i j Hi Hj. rewrite B4 by (apply valid_app; assumption). rewrite Z4 by (constructor; [specialize (H i Hi); lia|exact Hj]). cbn [hd tl]. rewrite <- (valid_length _ _ Hi), firstn_prefix, skip_prefix. rewrite hits_in_range by exact H. rewrite Z2Nat.id by (apply H, Hi). reflexivity.
Qed.

(* ---------- nel ---------- *)
Lemma segments : forall nel o k, k < length nel ->
  filter (fun q => nth q (concat (map (fun '(k, c) => repeat k c) (combine (seq o (length nel)) nel))) 0 =? o + k) (seq 0 (sum nel)) = seq (sum (firstn k nel)) (nth k nel 0).
Proof.
  assert (F : forall (p q : nat -> bool) n o, (forall t, t < n -> p (o + t) = q t) -> filter p (seq o n) = map (Nat.add o) (filter q (seq 0 n))).
  { clear. intros p q n o H. assert (E : seq o n = map (Nat.add o) (seq 0 n)) by (clear; rewrite <- (Nat.add_0_r o) at 1; generalize 0 as a; induction n as [|n IH]; intros a; [reflexivity|]; cbn [seq map]; rewrite <- IH, Nat.add_succ_r; reflexivity).
    rewrite E. assert (G : forall l, (forall t, In t l -> p (o + t) = q t) -> filter p (map (Nat.add o) l) = map (Nat.add o) (filter q l)).
    { induction l as [|a l IH]; intros Hl; [reflexivity|]. cbn [map filter]. rewrite (Hl a), IH by (auto using in_eq, in_cons). destruct (q a); reflexivity. }
    apply G. intros t Ht. apply in_seq in Ht. apply H. lia. }
  assert (C : forall nel o q, q < sum nel -> o <= nth q (concat (map (fun '(k, c) => repeat k c) (combine (seq o (length nel)) nel))) 0).
  { clear. induction nel as [|c nel IH]; intros o q H; [cbn in H; lia|]. change (sum (c :: nel)) with (c + sum nel) in H. cbn [length seq combine map concat]. destruct (Nat.lt_ge_cases q c) as [L|L]; [rewrite app_nth1 by (rewrite repeat_length; exact L)|rewrite app_nth2 by (rewrite repeat_length; exact L)].
    - rewrite (nth_indep _ 0 o) by (rewrite repeat_length; exact L). rewrite nth_repeat. lia.
    - rewrite repeat_length. specialize (IH (S o) (q - c) ltac:(lia)). lia. }
  induction nel as [|c nel IH]; intros o k Hk; [cbn in Hk; lia|]. change (sum (c :: nel)) with (c + sum nel). rewrite seq_app, filter_app. cbn [length seq combine map concat].
  assert (H1 : forall q, q < c -> nth q (repeat o c ++ concat (map (fun '(k, c) => repeat k c) (combine (seq (S o) (length nel)) nel))) 0 = o) by (intros q Hq; rewrite app_nth1 by (rewrite repeat_length; exact Hq); rewrite (nth_indep _ 0 o) by (rewrite repeat_length; exact Hq); apply nth_repeat).
  assert (H2 : forall q, nth (c + q) (repeat o c ++ concat (map (fun '(k, c) => repeat k c) (combine (seq (S o) (length nel)) nel))) 0 = nth q (concat (map (fun '(k, c) => repeat k c) (combine (seq (S o) (length nel)) nel))) 0) by (intros q; rewrite app_nth2 by (rewrite repeat_length; lia); rewrite repeat_length; f_equal; lia).
  destruct k as [|k].
  - cbn [firstn nth]. change (sum []) with 0. rewrite (filter_ext_in _ (fun _ => true)) by (intros q Hq; apply in_seq in Hq; rewrite H1 by lia; apply Nat.eqb_eq; lia).
    rewrite (filter_ext_in _ (fun _ => false) (seq (0 + c) (sum nel))).
    + assert (T : forall l : list nat, filter (fun _ => true) l = l) by (induction l; cbn; congruence). assert (N : forall l : list nat, filter (fun _ => false) l = []) by (induction l; cbn; congruence). rewrite T, N, app_nil_r. reflexivity.
    + intros q Hq. apply in_seq in Hq. replace q with (c + (q - c)) by lia. rewrite H2. apply Nat.eqb_neq. specialize (C nel (S o) (q - c) ltac:(lia)). lia.
  - cbn [firstn nth]. change (sum (?a :: ?l)) with (a + sum l). rewrite (filter_ext_in _ (fun _ => false) (seq 0 c)) by (intros q Hq; apply in_seq in Hq; rewrite H1 by lia; apply Nat.eqb_neq; lia).
    assert (N : forall l : list nat, filter (fun _ => false) l = []) by (induction l; cbn; congruence). rewrite N. cbn [app]. rewrite (F _ (fun q => nth q (concat (map (fun '(k, c) => repeat k c) (combine (seq (S o) (length nel)) nel))) 0 =? S o + k)).
    + rewrite IH by (cbn in Hk; lia). generalize (sum (firstn k nel)). induction (nth k nel 0) as [|m IHm]; intros a; [reflexivity|]. cbn [seq map]. rewrite IHm. f_equal. f_equal. lia.
    + intros t Ht. cbn [Nat.add]. rewrite H2. f_equal. lia.
Qed.
Lemma repeat_range_exact nel : repeat_range nel (sum nel) = concat (map (fun '(k, c) => repeat k c) (combine (seq 0 (length nel)) nel)).
Proof.
  unfold repeat_range. assert (L : length (concat (map (fun '(k, c) => repeat k c) (combine (seq 0 (length nel)) nel))) = sum nel).
  { generalize 0 as o. induction nel as [|c nel IH]; intros o; [reflexivity|]. cbn [length seq combine map concat]. rewrite app_length, repeat_length, IH. reflexivity. }
  rewrite L, Nat.sub_diag. cbn [repeat]. rewrite app_nil_r, <- L. apply firstn_all.
Qed.
Lemma all_idx1 n : all_idx [n] = map (fun k => [k]) (seq 0 n).
Proof. cbn [all_idx map]. generalize 0. induction n as [|n IH]; intros o; [reflexivity|]. cbn [seq flat_map map app]. rewrite IH. reflexivity. Qed.
Lemma nel_landing nel k : k < length nel -> landing [sum nel] (fun i => Z.of_nat (nth (hd 0%nat i) (repeat_range nel (sum nel)) 0%nat) =? Z.of_nat k)%Z = map (fun q => [q]) (seq (sum (firstn k nel)) (nth k nel 0)).
Proof.
  intros Hk. rewrite repeat_range_exact. rewrite <- (segments nel 0 k Hk). unfold landing. rewrite all_idx1. generalize (seq 0 (sum nel)). intros l. induction l as [|q l IH]; [reflexivity|]. cbn [map filter]. rewrite IH. cbn [hd Nat.add].
  set (a := nth q _ 0). destruct (Z.eqb_spec (Z.of_nat a) (Z.of_nat k)), (Nat.eqb_spec a k); try reflexivity; lia.
Qed.
Lemma nel_range nel i : valid [sum nel] i -> (0 <= Z.of_nat (nth (hd 0%nat i) (repeat_range nel (sum nel)) 0%nat) < Z.of_nat (length nel))%Z.
Proof.
  intros Hi. inversion Hi as [|q ? t ? Hq Ht]; subst. cbn [hd]. split; [lia|]. apply inj_lt. rewrite repeat_range_exact. assert (G : forall nel o q, q < sum nel -> nth q (concat (map (fun '(k, c) => repeat k c) (combine (seq o (length nel)) nel))) 0 < o + length nel); [|apply (G nel 0 q Hq)].
  clear. induction nel as [|c nel IH]; intros o q H; [cbn in H; lia|]. change (sum (c :: nel)) with (c + sum nel) in H. cbn [length seq combine map concat]. destruct (Nat.lt_ge_cases q c) as [L|L]; [rewrite app_nth1 by (rewrite repeat_length; exact L)|rewrite app_nth2 by (rewrite repeat_length; exact L)].
  - rewrite (nth_indep _ 0 o) by (rewrite repeat_length; exact L). rewrite nth_repeat. lia.
  - rewrite repeat_length. specialize (IH (S o) (q - c) ltac:(lia)). lia.
Qed.
Lemma lsum_seq_from o n f : lsum (seq o n) f = rsum n (fun q => f (o + q)).
Proof. rewrite <- lsum_seq. assert (E : seq o n = map (Nat.add o) (seq 0 n)) by (rewrite <- (Nat.add_0_r o) at 1; generalize 0 as a; induction n as [|n IH]; intros a; [reflexivity|]; cbn [seq map]; rewrite <- IH, Nat.add_succ_r; reflexivity). rewrite E, lsum_map. reflexivity. Qed.
(* nel: output[k] = sum(data[sum(nel[:k]) : sum(nel[:k+1])]) *)
Theorem C33_nel md x r nel : coherent x -> lead x = sum nel :: r ->
  exists z, scatter_sum x (Nel nel) None false md = Ok z /\ irr z = irr x /\ lead z = length nel :: r /\ coherent z /\
    forall k j c, k < length nel -> valid r j -> c < dim (irr x) -> nth c (arr z (k :: j)) 0%R = rsum (nth k nel 0) (fun q => nth c (arr x ((sum (firstn k nel) + q) :: j)) 0%R).
Proof.
  intros Hx E. set (dst := fun i : idx => Z.of_nat (nth (hd 0 i) (repeat_range nel (sum nel)) 0)).
  assert (Q : scatter_sum x (Nel nel) None false md = scatter_sum x (Dst [sum nel] dst) (Some (length nel)) false md) by (unfold scatter_sum, scatter_irreps, scatter_op; cbn [bind]; rewrite E; reflexivity). rewrite Q.
  destruct (C33_sum md x [sum nel] r dst (length nel) Hx E (nel_range nel)) as (z & Ez & Z1 & Z2 & Z3 & Z4). exists z. split; [exact Ez|]. split; [exact Z1|]. split; [exact Z2|]. split; [exact Z3|].
  intros k j c Hk Hj Hc. rewrite Z4 by assumption. unfold dst. rewrite nel_landing by exact Hk. rewrite lsum_map, lsum_seq_from. reflexivity.
Qed.

(* ---------- scatter_mean ---------- *)
Lemma count_lsum {A} (l : list A) : lsum l (fun _ => 1%R) = INR (length l).
Proof. induction l as [|a l IH]; [reflexivity|]. rewrite lsum_cons, IH. cbn [length]. rewrite S_INR. ring. Qed.
Lemma Rmax_INR n : Rmax 1 (INR n) = INR (Nat.max 1 n).
Proof. destruct n as [|n]; [cbn; apply Rmax_left; lra|]. rewrite Nat.max_r by lia. apply Rmax_right. change 1%R with (INR 1). apply le_INR. lia. Qed.
Theorem C33_mean md x dsh r dst n : coherent x -> lead x = dsh ++ r -> (forall i, valid dsh i -> 0 <= dst i < Z.of_nat n)%Z ->
  exists z, scatter_mean x (Dst dsh dst) (Some n) false md = Ok z /\ irr z = irr x /\ lead z = n :: r /\ coherent z /\
    forall k j c, k < n -> valid r j -> c < dim (irr x) ->
      let here := landing dsh (fun i => dst i =? Z.of_nat k)%Z in
      nth c (arr z (k :: j)) 0%R = (lsum here (fun i => nth c (arr x (i ++ j)) 0) / INR (Nat.max 1 (length here)))%R.
Proof.
  intros Hx E H. destruct (C33_sum md x dsh r dst n Hx E H) as (z & Ez & Z1 & Z2 & Z3 & Z4). unfold scatter_mean. rewrite Ez. cbn [bind]. rewrite Z2.
  unfold scatter_op. cbn [bind]. assert (P0 : is_prefix dsh dsh = true) by (pose proof (prefix_ok dsh []) as P; rewrite app_nil_r in P; exact P). rewrite P0, skipn_all. cbn [negb bind].
  set (cnt := scatter_rows Rplus 0%R 1 dsh (fun i => resolve_index md n (dst i)) (fun _ => [1%R])).
  destruct (new_yields (irr x) (n :: r) (fun i => map (fun v => v / counted ([n], cnt) (firstn 1 i))%R (arr z i))) as (y & -> & Y1 & Y2 & Y3 & Y4); [intros i Hi; rewrite map_length, <- Z1; apply Z3; rewrite Z2; exact Hi|].
  exists y. split; [reflexivity|]. split; [exact Y1|]. split; [exact Y2|]. split; [exact Y3|]. intros k j c Hk Hj Hc. cbv zeta. rewrite Y4 by (constructor; assumption). assert (L : length (arr z (k :: j)) = dim (irr x)) by (rewrite <- Z1; apply Z3; rewrite Z2; constructor; assumption).
  rewrite (nth_indep _ 0%R (0 / counted ([n], cnt) (firstn 1 (k :: j)))%R) by (rewrite map_length, L; exact Hc). rewrite (map_nth (fun v => (v / counted ([n], cnt) (firstn 1 (k :: j)))%R)). rewrite Z4 by assumption. f_equal. f_equal. unfold counted. cbn [snd firstn]. unfold cnt. rewrite scatter_rows_nth by (auto; lia). cbn [nth]. rewrite count_lsum, hits_in_range by exact H. apply Rmax_INR.
Qed.
(* map_back: every position receives the mean over the positions with the same label *)
Theorem C33_mean_map_back md x dsh r dst : coherent x -> lead x = dsh ++ r ->
  exists z, scatter_mean x (Dst dsh dst) None true md = Ok z /\ irr z = irr x /\ lead z = lead x /\ coherent z /\
    forall i j c, valid dsh i -> valid r j -> c < dim (irr x) ->
      let here := landing dsh (fun i' => dst i' =? dst i)%Z in
      nth c (arr z (i ++ j)) 0%R = (lsum here (fun i' => nth c (arr x (i' ++ j)) 0) / INR (length here))%R.
Proof.
  intros Hx E. destruct (C33_map_back md x dsh r dst Hx E) as (z & Ez & Z1 & Z2 & Z3 & Z4). unfold scatter_mean. rewrite Ez. cbn [bind]. rewrite Z2.
  unfold scatter_op. cbn [bind]. assert (P0 : is_prefix dsh dsh = true) by (pose proof (prefix_ok dsh []) as P; rewrite app_nil_r in P; exact P). rewrite P0. cbn [negb bind].
  set (cnt := fun i : idx => scatter_rows Rplus 0%R 1 dsh (fun i0 => resolve_index md (prod dsh) (distinct_but_small dsh dst i0)) (fun _ => [1%R]) (Z.to_nat (distinct_but_small dsh dst (firstn (length dsh) i)) :: skipn (length dsh) i)).
  destruct (new_yields (irr x) (lead x) (fun i => map (fun v => v / counted (dsh, cnt) (firstn (length dsh) i))%R (arr z i))) as (y & -> & Y1 & Y2 & Y3 & Y4); [intros i Hi; rewrite map_length, <- Z1; apply Z3; rewrite Z2; exact Hi|].
  exists y. split; [reflexivity|]. split; [exact Y1|]. split; [exact Y2|]. split; [exact Y3|]. intros i j c Hi Hj Hc. cbv zeta. assert (Hij : valid (lead x) (i ++ j)) by (rewrite E; apply valid_app; assumption). rewrite Y4 by exact Hij. assert (L : length (arr z (i ++ j)) = dim (irr x)) by (rewrite <- Z1; apply Z3; rewrite Z2; exact Hij).
  assert (Fi : firstn (length dsh) (i ++ j) = i) by (rewrite <- (valid_length _ _ Hi); apply firstn_prefix). rewrite Fi.
  rewrite (nth_indep _ 0%R (0 / counted (dsh, cnt) i)%R) by (rewrite map_length, L; exact Hc). rewrite (map_nth (fun v => (v / counted (dsh, cnt) i)%R)). rewrite Z4 by assumption. f_equal. f_equal.
  unfold counted. cbn [snd]. unfold cnt. rewrite scatter_rows_nth by (auto; lia). cbn [nth]. rewrite count_lsum. rewrite <- (valid_length _ _ Hi), firstn_all. rewrite scatter_back_landing by exact Hi. rewrite Rmax_INR. f_equal. apply Nat.max_r.
  assert (I : In i (landing dsh (fun j0 => dst j0 =? dst i)%Z)) by (apply C33_landing; split; [exact Hi|apply Z.eqb_refl]). destruct (landing dsh _); [destruct I|cbn; lia].
Qed.
Theorem C33_mean_nel md x r nel : coherent x -> lead x = sum nel :: r ->
  exists z, scatter_mean x (Nel nel) None false md = Ok z /\ irr z = irr x /\ lead z = length nel :: r /\ coherent z /\
    forall k j c, k < length nel -> valid r j -> c < dim (irr x) -> nth c (arr z (k :: j)) 0%R = (rsum (nth k nel 0%nat) (fun q => nth c (arr x ((sum (firstn k nel) + q)%nat :: j)) 0) / INR (Nat.max 1 (nth k nel 0%nat)))%R.
Proof.
  intros Hx E. destruct (C33_nel md x r nel Hx E) as (z & Ez & Z1 & Z2 & Z3 & Z4). unfold scatter_mean. rewrite Ez. cbn [bind]. rewrite Z2.
  destruct (new_yields (irr x) (length nel :: r) (fun i => map (fun v => v / Rmax 1 (INR (nth (hd 0%nat i) nel 0%nat)))%R (arr z i))) as (y & -> & Y1 & Y2 & Y3 & Y4); [intros i Hi; rewrite map_length, <- Z1; apply Z3; rewrite Z2; exact Hi|].
  exists y. split; [reflexivity|]. split; [exact Y1|]. split; [exact Y2|]. split; [exact Y3|]. intros k j c Hk Hj Hc. rewrite Y4 by (constructor; assumption). assert (L : length (arr z (k :: j)) = dim (irr x)) by (rewrite <- Z1; apply Z3; rewrite Z2; constructor; assumption). cbn [hd].
  rewrite (nth_indep _ 0%R (0 / Rmax 1 (INR (nth k nel 0%nat)))%R) by (rewrite map_length, L; exact Hc). rewrite (map_nth (fun v => (v / Rmax 1 (INR (nth k nel 0%nat)))%R)). rewrite Z4 by assumption. rewrite Rmax_INR. reflexivity.
Qed.
(* nel and map_back: the row at position p of segment k receives the mean of its segment *)
Theorem C33_mean_nel_map_back md x r nel : coherent x -> lead x = sum nel :: r ->
  exists z, scatter_mean x (Nel nel) None true md = Ok z /\ irr z = irr x /\ lead z = lead x /\ coherent z /\
    forall k p j c, k < length nel -> p < nth k nel 0 -> valid r j -> c < dim (irr x) -> nth c (arr z ((sum (firstn k nel) + p) :: j)) 0%R = (rsum (nth k nel 0%nat) (fun q => nth c (arr x ((sum (firstn k nel) + q)%nat :: j)) 0) / INR (nth k nel 0%nat))%R.
Proof.
  intros Hx E. destruct (C33_nel md x r nel Hx E) as (z & Ez & Z1 & Z2 & Z3 & Z4). unfold scatter_mean. rewrite Ez. cbn [bind]. rewrite Z2, E. cbv zeta. cbn [hd tl].
  assert (Rn : forall q, q < sum nel -> nth q (repeat_range nel (sum nel)) 0 < length nel) by (intros q Hq; pose proof (nel_range nel [q] ltac:(constructor; [exact Hq|constructor])) as R; cbn [hd] in R; lia).
  destruct (new_yields (irr x) (sum nel :: r) (fun i => map (fun v => v / Rmax 1 (INR (nth (nth (hd 0%nat i) (repeat_range nel (sum nel)) 0%nat) nel 0%nat)))%R (arr z (nth (hd 0 i) (repeat_range nel (sum nel)) 0 :: tl i)))) as (y & -> & Y1 & Y2 & Y3 & Y4).
  { intros i Hi. rewrite map_length, <- Z1. apply Z3. rewrite Z2. inversion Hi; subst. constructor; [apply Rn; assumption|assumption]. }
  exists y. split; [reflexivity|]. split; [exact Y1|]. split; [congruence|]. split; [exact Y3|]. intros k p j c Hk Hp Hj Hc.
  assert (In (sum (firstn k nel) + p) (seq (sum (firstn k nel)) (nth k nel 0))) as I by (apply in_seq; lia). rewrite <- (segments nel 0 k Hk) in I. apply filter_In in I as [I1 I2]. apply in_seq in I1. apply Nat.eqb_eq in I2. rewrite <- repeat_range_exact in I2. cbn [Nat.add] in I2.
  rewrite Y4 by (constructor; [lia|exact Hj]). cbv zeta. cbn [hd tl]. rewrite I2. assert (L : length (arr z (k :: j)) = dim (irr x)) by (rewrite <- Z1; apply Z3; rewrite Z2; constructor; assumption).
  rewrite (nth_indep _ 0%R (0 / Rmax 1 (INR (nth k nel 0%nat)))%R) by (rewrite map_length, L; exact Hc). rewrite (map_nth (fun v => (v / Rmax 1 (INR (nth k nel 0%nat)))%R)). rewrite Z4 by assumption. rewrite Rmax_INR, Nat.max_r by lia. reflexivity.
Qed.

(* ---------- scatter_max ---------- *)
Lemma fold_Rmax {A} (l : list A) f c : let m := fold_left (fun acc j => Rmax acc (f j)) l c in (c <= m)%R /\ (forall a, In a l -> (f a <= m)%R) /\ (m = c \/ exists a, In a l /\ m = f a).
Proof.
  revert c. induction l as [|a l IH]; intros c; cbv zeta; [cbn; split; [lra|split; [intros ? []|left; reflexivity]]|]. cbn [fold_left]. destruct (IH (Rmax c (f a))) as (H1 & H2 & H3). pose proof (Rmax_l c (f a)). pose proof (Rmax_r c (f a)). split; [lra|]. split; [intros b [->|Hb]; [lra|auto]|].
  destruct H3 as [H3|(b & Hb & H3)]; [|right; exists b; auto using in_cons]. rewrite H3. unfold Rmax. destruct (Rle_dec c (f a)); [right; exists a; auto using in_eq|left; reflexivity].
Qed.
(* the result is the largest of the initial value and the data that lands there *)
Theorem C33_max md init x dsh r dst n : coherent x -> is_scalar (irr x) = true -> lead x = dsh ++ r -> (forall i, valid dsh i -> 0 <= dst i < Z.of_nat n)%Z ->
  exists z, scatter_max init x (Dst dsh dst) (Some n) false md = Ok z /\ irr z = irr x /\ lead z = n :: r /\ coherent z /\
    forall k j c, k < n -> valid r j -> c < dim (irr x) ->
      let v := nth c (arr z (k :: j)) 0%R in
      (init <= v)%R /\ (forall i, valid dsh i -> dst i = Z.of_nat k -> (nth c (arr x (i ++ j)) 0 <= v)%R) /\
      (v = init \/ exists i, valid dsh i /\ dst i = Z.of_nat k /\ v = nth c (arr x (i ++ j)) 0%R).
Proof.
  intros Hx Hs E H. unfold scatter_max. rewrite Hs. cbn [negb]. unfold scatter_irreps, scatter_op. cbn [bind]. rewrite E, prefix_ok, skip_prefix. cbn [negb bind].
  assert (La : forall j, valid r j -> forall i, In i (all_idx dsh) -> length (arr x (i ++ j)) = dim (irr x)) by (intros j Hj i Hi; apply Hx; rewrite E; apply valid_app; [apply all_idx_valid, Hi|exact Hj]).
  destruct (new_yields (irr x) (n :: r) (scatter_rows Rmax init (dim (irr x)) dsh (fun i => resolve_index md n (dst i)) (arr x))) as (z & -> & Z1 & Z2 & Z3 & Z4).
  { intros i Hi. inversion Hi as [|k ? j ? Hk Hj]; subst. apply update_rows_length; [apply repeat_length|apply La, Hj]. }
  exists z. split; [reflexivity|]. split; [exact Z1|]. split; [exact Z2|]. split; [exact Z3|]. intros k j c Hk Hj Hc. cbv zeta. rewrite Z4 by (constructor; assumption). unfold scatter_rows. rewrite (update_rows_nth Rmax (dim (irr x))) by (auto using repeat_length; apply La, Hj).
  change (filter (hits ?d k) (all_idx dsh)) with (landing dsh (hits d k)). rewrite hits_in_range by exact H. rewrite (nth_indep _ 0%R init) by (rewrite repeat_length; exact Hc). rewrite nth_repeat.
  destruct (fold_Rmax (landing dsh (fun i => dst i =? Z.of_nat k)%Z) (fun i => nth c (arr x (i ++ j)) 0%R) init) as (H1 & H2 & H3). split; [exact H1|]. split.
  - intros i Hi Q. apply H2. apply C33_landing. split; [exact Hi|]. apply Z.eqb_eq, Q.
  - destruct H3 as [H3|(i & Hi & H3)]; [left; exact H3|right]. apply C33_landing in Hi as [Hi Q]. apply Z.eqb_eq in Q. eauto.
Qed.
(* default initial value -inf (None): the maximum, or -inf when nothing lands there *)
Definition ele (a b : option R) : Prop := match a, b with None, _ => True | Some _, None => False | Some u, Some v => (u <= v)%R end.
Theorem C33_max_default md s w (a : idx -> list (option R)) dsh r dst n : s = dsh ++ r -> (forall i, valid s i -> length (a i) = w) -> (forall i, valid dsh i -> 0 <= dst i < Z.of_nat n)%Z ->
  exists z, scatter_max_inf s w a (Dst dsh dst) (Some n) false md = Ok (n :: r, z) /\
    forall k j c, k < n -> valid r j -> c < w ->
      let v := nth c (z (k :: j)) None in
      (forall i, valid dsh i -> dst i = Z.of_nat k -> ele (nth c (a (i ++ j)) None) v) /\
      (v = None /\ (forall i, valid dsh i -> dst i = Z.of_nat k -> nth c (a (i ++ j)) None = None) \/ exists i, valid dsh i /\ dst i = Z.of_nat k /\ v = nth c (a (i ++ j)) None).
Proof.
  intros -> L H. unfold scatter_max_inf, scatter_op. cbn [bind]. rewrite prefix_ok, skip_prefix. cbn [negb]. eexists. split; [reflexivity|]. intros k j c Hk Hj Hc. cbv zeta. unfold scatter_rows.
  assert (La : forall i, In i (all_idx dsh) -> length (a (i ++ j)) = w) by (intros i Hi; apply L; apply valid_app; [apply all_idx_valid, Hi|exact Hj]).
  rewrite (update_rows_nth emax w) by auto using repeat_length.
  change (filter (hits ?d k) (all_idx dsh)) with (landing dsh (hits d k)). rewrite hits_in_range by exact H. rewrite nth_repeat.
  assert (T : forall u v, ele u (emax u v) /\ ele v (emax u v) /\ (emax u v = u \/ emax u v = v)).
  { intros [u|] [v|]; cbn [emax ele].
    - split; [apply Rmax_l|]. split; [apply Rmax_r|]. unfold Rmax. destruct (Rle_dec u v); auto.
    - split; [lra|auto].
    - split; [exact I|]. split; [lra|auto].
    - auto. }
  assert (Tr : forall u v t, ele u v -> ele v t -> ele u t) by (intros [u|] [v|] [t|]; cbn; try tauto; lra).
  assert (G : forall l (f : idx -> option R) e, let m := fold_left (fun acc i => emax acc (f i)) l e in ele e m /\ (forall i, In i l -> ele (f i) m) /\ (m = e \/ exists i, In i l /\ m = f i)).
  { induction l as [|i l IH]; intros f e; cbv zeta; [cbn; split; [destruct e; cbn; [lra|exact I]|split; [intros ? []|left; reflexivity]]|]. cbn [fold_left]. destruct (IH f (emax e (f i))) as (H1 & H2 & H3). destruct (T e (f i)) as (T1 & T2 & T3). split; [eapply Tr; eauto|]. split; [intros b [->|Hb]; [eapply Tr; eauto|auto]|].
    destruct H3 as [H3|(b & Hb & H3)]; [|right; exists b; auto using in_cons]. rewrite H3. destruct T3 as [->| ->]; [left; reflexivity|right; exists i; auto using in_eq]. }
  destruct (G (landing dsh (fun i => dst i =? Z.of_nat k)%Z) (fun i => nth c (a (i ++ j)) None) None) as (_ & H2 & H3). set (m := fold_left _ _ _) in *.
  assert (H2' : forall i, valid dsh i -> dst i = Z.of_nat k -> ele (nth c (a (i ++ j)) None) m) by (intros i Hi Q; apply H2, C33_landing; split; [exact Hi|apply Z.eqb_eq, Q]). split; [exact H2'|].
  destruct H3 as [H3|(i & Hi & H3)].
  - left. split; [exact H3|]. intros i Hi Q. specialize (H2' i Hi Q). rewrite H3 in H2'. destruct (nth c (a (i ++ j)) None); [destruct H2'|reflexivity].
  - right. apply C33_landing in Hi as [Hi Q]. apply Z.eqb_eq in Q. eauto.
Qed.
Theorem C33_max_rejects md init x t size mb : is_scalar (irr x) = false -> scatter_max init x t size mb md = Err ValueError.
Proof. intros H. unfold scatter_max. rewrite H. reflexivity. Qed.
(* inconsistent arguments are rejected *)
Theorem C33_rejects md x : 
  (forall size mb, scatter_sum x NoTarget size mb md = Err ValueError /\ scatter_sum x BothTargets size mb md = Err ValueError) /\
  (forall nel n mb, scatter_sum x (Nel nel) (Some n) mb md = Err ValueError) /\
  (forall dsh dst, scatter_sum x (Dst dsh dst) None false md = Err ValueError) /\
  (forall dsh dst n, scatter_sum x (Dst dsh dst) (Some n) true md = Err ValueError) /\
  (forall dsh dst size mb, (forall r, lead x <> dsh ++ r) -> scatter_sum x (Dst dsh dst) size mb md = Err ValueError).
Proof.
  unfold scatter_sum, scatter_irreps, scatter_op. split; [split; reflexivity|]. split; [reflexivity|]. split; [intros; cbn [bind]; destruct (is_prefix _ _); reflexivity|]. split; [intros; cbn [bind]; destruct (is_prefix _ _); reflexivity|].
  intros dsh dst size mb H. cbn [bind]. destruct (is_prefix dsh (lead x)) eqn:P; [|reflexivity]. exfalso. unfold is_prefix in P. apply list_eqb_eq in P. apply (H (skipn (length dsh) (lead x))). rewrite <- P at 1. symmetry. apply firstn_skipn.
Qed.
(* fewer rows than nel announces: the last segments are short; more rows: the last segment takes them *)
Example C33_nel_mismatch : repeat_range [2; 1] 2 = [0; 0] /\ repeat_range [2; 1] 5 = [0; 0; 1; 1; 1].
Proof. split; reflexivity. Qed.
Example C33_nonvacuous : let x := IA [(1, Irrep 1 Odd)] [3] (fun i => [INR (hd 0%nat i); 1; 2]%R) None None in let dst := fun i : idx => nth (hd 0%nat i) [1; 0; 1]%Z 0%Z in
  coherent x /\ lead x = [3] ++ [] /\ (forall i, valid [3] i -> (0 <= dst i < Z.of_nat 2)%Z) /\ landing [3] (fun i => dst i =? Z.of_nat 1)%Z = [[0]; [2]] /\ sum [1; 0; 2] = 3.
Proof.
  cbv zeta. split; [split; [intros i V; reflexivity|split; [apply flags_false|exact I]]|]. split; [reflexivity|]. split; [|split; reflexivity]. intros i V. inversion V as [|q ? t ? Hq Ht]; subst. cbn [hd]. destruct q as [|[|[|q]]]; cbn; lia.
Qed.
