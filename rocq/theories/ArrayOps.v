(* Structural operations of IrrepsArray: value and coherence of the results. *)
From Verif Require Import PyBase PermModel PermProofs IrrepsModel IrrepsProofs IrrepsProofs2 ArrayModel ArrayProofs.
From Coq Require Import Reals Permutation.
Open Scope nat_scope.

Definition pairs (x : iarray) : list (mulirrep * option chunk) := combine (irr x) (chunks x).

Lemma combine_map_fst {A B} (l : list A) (l' : list B) : length l = length l' -> map fst (combine l l') = l.
Proof. revert l'. induction l; intros [|b l'] H; try discriminate; [reflexivity|]. simpl. rewrite IHl by (injection H; auto). reflexivity. Qed.
Lemma combine_map_snd {A B} (l : list A) (l' : list B) : length l = length l' -> map snd (combine l l') = l'.
Proof. revert l'. induction l; intros [|b l'] H; try discriminate; [reflexivity|]. simpl. rewrite IHl by (injection H; auto). reflexivity. Qed.
Lemma combine_of_map {A B C} (f : A -> B) (g : A -> C) l : combine (map f l) (map g l) = map (fun a => (f a, g a)) l.
Proof. induction l; simpl; congruence. Qed.

Lemma chunks_length x : coherent x -> length (chunks x) = length (irr x).
Proof. intros H. symmetry. eapply Forall2_length, chunks_wf, H. Qed.
Lemma zero_flags_length x : coherent x -> length (zero_flags x) = length (irr x).
Proof. intros (_ & H & _). eapply flags_ok_length, H. Qed.
Lemma pairs_fst x : coherent x -> map fst (pairs x) = irr x.
Proof. intros H. apply combine_map_fst. rewrite chunks_length by exact H. reflexivity. Qed.
Lemma pairs_snd x : coherent x -> map snd (pairs x) = chunks x.
Proof. intros H. apply combine_map_snd. rewrite chunks_length by exact H. reflexivity. Qed.
Definition wf_pair (s : shape) (p : mulirrep * option chunk) : Prop := wf_opt s (fst p) (snd p).
Definition den_pair (i : idx) (p : mulirrep * option chunk) : list R := den (fst p) (snd p) i.
Lemma pairs_wf x : coherent x -> Forall (wf_pair (lead x)) (pairs x).
Proof.
  intros H. pose proof (chunks_wf x H) as W. unfold pairs. induction W; [constructor|]. cbn. constructor; assumption.
Qed.
Lemma pairs_blocks x i : coherent x -> valid (lead x) i -> blocks (irr x) (arr x i) = map (den_pair i) (pairs x).
Proof. intros H Hi. rewrite (chunks_blocks x H i Hi). apply map_ext. intros []. reflexivity. Qed.

Lemma from_pairs_ok l s : Forall (wf_pair s) l ->
  exists y, from_chunks (map fst l) (map snd l) s true = Ok y /\ irr y = map fst l /\ lead y = s /\ coherent y /\
   (forall i, valid s i -> arr y i = concat (map (den_pair i) l)) /\ chs y = Some (map snd l) /\ zf y = Some (map (fun p => is_none (snd p)) l).
Proof.
  intros H. assert (W : Forall2 (wf_opt s) (map fst l) (map snd l)) by (induction H; constructor; assumption).
  destruct (from_chunks_ok _ _ _ true W) as (y & E & E1 & E2 & E3 & E4 & E5 & E6); [auto|]. exists y.
  split; [exact E|]. split; [exact E1|]. split; [exact E2|]. split; [exact E3|]. split; [|split; [exact E6|]].
  - intros i Hi. rewrite (E4 i Hi). unfold chunks_row. rewrite combine_of_map, flat_map_concat_map, map_map. reflexivity.
  - rewrite E5, map_map. reflexivity.
Qed.

Lemma yields_from_pairs l s r x a : r = from_chunks (map fst l) (map snd l) s true -> Forall (wf_pair s) l -> x = map fst l ->
  (forall i, valid s i -> a i = concat (map (den_pair i) l)) -> yields r x s a.
Proof.
  intros -> H -> Ha. destruct (from_pairs_ok l s H) as (y & E & E1 & E2 & E3 & E4 & _). exists y.
  split; [exact E|]. split; [exact E1|]. split; [exact E2|]. split; [exact E3|]. intros i Hi. rewrite Ha, E4 by exact Hi. reflexivity.
Qed.

(* ---------- sort ---------- *)
Lemma nth_error_combine {A B} (l : list A) (l' : list B) k : nth_error (combine l l') k =
  match nth_error l k, nth_error l' k with Some a, Some b => Some (a, b) | _, _ => None end.
Proof.
  revert l' k. induction l; intros [|b l'] [|k]; simpl; try reflexivity; [destruct (nth_error l k); reflexivity|]. apply IHl.
Qed.

Lemma map_nth_combine {A B} (l : list A) (l' : list B) da db ks : length l = length l' ->
  map (fun k => nth k (combine l l') (da, db)) ks = combine (map (fun k => nth k l da) ks) (map (fun k => nth k l' db) ks).
Proof. intros H. rewrite combine_of_map. apply map_ext. intros k. apply combine_nth. exact H. Qed.

Definition dpair : mulirrep * option chunk := (dflt, None).

Lemma sort_yields x : coherent x ->
  yields (ia_sort x) (sort_irreps (irr x)) (lead x)
    (fun i => concat (map (fun k => nth k (blocks (irr x) (arr x i)) []) (sort_inv_list (irr x)))).
Proof.
  intros H. set (inv := sort_inv_list (irr x)). set (l := map (fun k => nth k (pairs x) dpair) inv).
  pose proof (sort_inv_perm (irr x)) as P. fold inv in P. assert (Li : length inv = length (irr x)) by apply sort_inv_length.
  assert (Lp : length (pairs x) = length (irr x)). { unfold pairs. rewrite combine_length, chunks_length by exact H. lia. }
  assert (Hin : forall k, In k inv -> k < length (irr x)). { intros k Hk. rewrite <- Li. apply perm_In; assumption. }
  assert (E : l = combine (map (fun k => nth k (irr x) dflt) inv) (map (fun k => nth k (chunks x) None) inv)).
  { apply map_nth_combine. rewrite chunks_length by exact H. reflexivity. }
  assert (Ei : sort_irreps (irr x) = map (fun k => nth k (irr x) dflt) inv).
  { apply nth_ext with (d := dflt) (d' := dflt); [rewrite sort_irreps_length, map_length; congruence|].
    rewrite sort_irreps_length. intros n Hn. rewrite sort_irreps_nth by exact Hn.
    rewrite (nth_indep (map _ _) dflt (nth 0 (irr x) dflt)) by (rewrite map_length, Li; exact Hn).
    rewrite (map_nth (fun k => nth k (irr x) dflt) inv 0 n). reflexivity. }
  assert (F1 : sort_irreps (irr x) = map fst l). { rewrite E, combine_map_fst by (rewrite !map_length; reflexivity). exact Ei. }
  eapply (yields_from_pairs l).
  - unfold ia_sort. rewrite sort_Ok. cbn [bind]. fold inv.
    rewrite (mapM_Ok _ (fun k => nth k (chunks x) None)).
    2:{ intros k Hk. unfold get. rewrite (nth_error_nth' _ None) by (rewrite chunks_length by exact H; auto). reflexivity. }
    cbn [bind]. rewrite F1. f_equal. rewrite E, combine_map_snd by (rewrite !map_length; reflexivity). reflexivity.
  - apply Forall_forall. intros p Hp. unfold l in Hp. apply in_map_iff in Hp as (k & <- & Hk).
    pose proof (pairs_wf x H) as W. rewrite Forall_forall in W. apply W. apply nth_In. rewrite Lp. auto.
  - exact F1.
  - intros i Hi. f_equal. unfold l. rewrite map_map. apply map_ext_in. intros k Hk.
    rewrite (pairs_blocks x i H Hi). rewrite (nth_indep _ [] (den_pair i dpair)) by (rewrite map_length, Lp; auto). apply map_nth.
Qed.

(* ---------- selections of entries ---------- *)
(* keep the components of [v] at the positions where [sel] is true *)
Fixpoint select {A} (sel : list bool) (v : list A) : list A :=
  match sel, v with
  | b :: sel, a :: v => if b then a :: select sel v else select sel v
  | _, _ => []
  end.
Lemma select_map {A B} (f : A -> B) sel v : select sel (map f v) = map f (select sel v).
Proof. revert v. induction sel as [|b sel IH]; intros [|a v]; try reflexivity. cbn. destruct b; cbn; rewrite IH; reflexivity. Qed.
Lemma select_filter {A} (f : A -> bool) v : select (map f v) v = filter f v.
Proof. induction v as [|a v IH]; [reflexivity|]. cbn. rewrite IH. reflexivity. Qed.
Lemma select_combine {A} (v : list A) sel : map fst (filter (fun '(_, z) => z) (combine v sel)) = select sel v.
Proof. revert sel. induction v as [|a v IH]; intros [|b sel]; try reflexivity. cbn. destruct b; cbn; rewrite IH; reflexivity. Qed.
Lemma select_In {A} sel (v : list A) a : In a (select sel v) -> In a v.
Proof. revert v. induction sel as [|b sel IH]; intros [|c v] H; try contradiction. cbn in *. destruct b; [destruct H as [->|H]|]; auto. Qed.

Lemma select_pairs_yields x sel r : coherent x -> length sel = length (irr x) ->
  r = from_chunks (select sel (irr x)) (select sel (chunks x)) (lead x) true ->
  yields r (select sel (irr x)) (lead x) (fun i => concat (select sel (blocks (irr x) (arr x i)))).
Proof.
  intros H L ->. eapply (yields_from_pairs (select sel (pairs x))).
  - rewrite <- !select_map, pairs_fst, pairs_snd by exact H. reflexivity.
  - apply Forall_forall. intros p Hp. pose proof (pairs_wf x H) as W. rewrite Forall_forall in W. eapply W, select_In, Hp.
  - rewrite <- select_map, pairs_fst by exact H. reflexivity.
  - intros i Hi. rewrite <- select_map, (pairs_blocks x i H Hi). reflexivity.
Qed.

Lemma filter_negb_combine {A} (v : list A) fl : map fst (filter (fun '(_, z) => negb z) (combine v fl)) = select (map negb fl) v.
Proof. revert fl. induction v as [|a v IH]; intros [|b fl]; try reflexivity. cbn. destruct b; cbn; rewrite IH; reflexivity. Qed.

Lemma remove_zero_chunks_yields x : coherent x ->
  yields (remove_zero_chunks x) (select (map negb (zero_flags x)) (irr x)) (lead x)
    (fun i => concat (select (map negb (zero_flags x)) (blocks (irr x) (arr x i)))).
Proof.
  intros H. apply select_pairs_yields; [exact H|rewrite map_length; apply zero_flags_length, H|].
  unfold remove_zero_chunks. rewrite !filter_negb_combine. reflexivity.
Qed.

(* filter: when the predicate only depends on the irrep *)
Definition wants (keep drop : option selector) (lm : option Z) (m : mulirrep) : bool :=
  match keep, drop, lm with
  | Some k, None, None => selects k m
  | None, Some d, None => negb (selects d m)
  | None, None, Some L => (Z.of_nat (ir_l (snd m)) <=? L)%Z
  | _, _, _ => true
  end.
Lemma filter_irreps_wants x keep drop lm r : filter_irreps x keep drop lm = Ok r -> r = filter (wants keep drop lm) x.
Proof.
  destruct keep, drop, lm; cbn; intros E; try discriminate; injection E as <-; try reflexivity.
  induction x; cbn; [reflexivity|]. rewrite <- IHx. reflexivity.
Qed.
Lemma map_fst_filter_combine {A B} (P : B -> bool) (v : list A) (w : list B) : length v = length w ->
  map fst (filter (fun '(_, m) => P m) (combine v w)) = select (map P w) v.
Proof. revert w. induction v as [|a v IH]; intros [|b w] L; try discriminate; [reflexivity|]. cbn. destruct (P b); cbn; rewrite IH by (injection L; auto); reflexivity. Qed.

Lemma filter_yields x keep drop lm new : coherent x -> (keep, drop, lm) <> (None, None, None) ->
  filter_irreps (irr x) keep drop lm = Ok new ->
  (forall m n, In m (irr x) -> In n (irr x) -> snd m = snd n -> wants keep drop lm m = wants keep drop lm n) ->
  yields (ia_filter x keep drop lm) new (lead x)
    (fun i => concat (select (map (wants keep drop lm) (irr x)) (blocks (irr x) (arr x i)))).
Proof.
  intros H Hn E Hw. pose proof (filter_irreps_wants _ _ _ _ _ E) as ->.
  rewrite <- select_filter. apply select_pairs_yields; [exact H|apply map_length|].
  assert (G : ia_filter x keep drop lm = from_chunks (filter (wants keep drop lm) (irr x))
    (map fst (filter (fun '(_, m) => contains (filter (wants keep drop lm) (irr x)) (snd m)) (combine (chunks x) (irr x)))) (lead x) true).
  { unfold ia_filter. destruct keep, drop, lm; try congruence; cbn [bind] in *; rewrite E; reflexivity. }
  rewrite G, map_fst_filter_combine by (apply chunks_length, H). rewrite select_filter. f_equal. f_equal.
  apply map_ext_in. intros m Hm. unfold contains. apply eq_true_iff_eq. rewrite existsb_exists. split.
  - intros (n & Hin & En). apply irrep_eqb_eq in En. apply filter_In in Hin as [Hin Hw']. rewrite (Hw m n); auto.
  - intros Hm'. exists m. split; [apply filter_In; auto|apply irrep_eqb_refl].
Qed.

Lemma filter_none x : ia_filter x None None None = Ok x.
Proof. reflexivity. Qed.

(* ---------- slice_by_chunk ---------- *)
Lemma take_step_map {A B} (f : A -> B) l a st k : take_step (map f l) a st k = map f (take_step l a st k).
Proof.
  revert a. induction k; intros a; [reflexivity|]. cbn. rewrite nth_error_map. destruct (nth_error l (Z.to_nat a)); cbn; [rewrite IHk|]; reflexivity.
Qed.
Lemma take_step_In {A} (l : list A) a st k b : In b (take_step l a st k) -> In b l.
Proof.
  revert a. induction k; intros a H; [contradiction|]. cbn in H. destruct (nth_error l (Z.to_nat a)) eqn:E; [|contradiction].
  destruct H as [->|H]; [eapply nth_error_In, E|eapply IHk, H].
Qed.
Lemma tuple_slice_map {A B} (f : A -> B) l s : tuple_slice (map f l) s = rmap (map f) (tuple_slice l s).
Proof.
  unfold tuple_slice. rewrite map_length. destruct (slice_indices s (length l)) as [[[a b] st]|]; [|reflexivity]. cbn. rewrite take_step_map. reflexivity.
Qed.
Lemma tuple_slice_In {A} (l r : list A) s a : tuple_slice l s = Ok r -> In a r -> In a l.
Proof.
  unfold tuple_slice. destruct (slice_indices s (length l)) as [[[u v] st]|]; [|discriminate]. cbn. intros E. injection E as <-. apply take_step_In.
Qed.

Definition resolved (sl : slice) (n : nat) : res slice :=
  let! r := slice_indices sl n in let '(a, b, st) := r in Ok (Slice (Some a) (Some b) (Some st)).

Lemma slice_by_chunk_yields x sl sl' new : coherent x -> resolved sl (length (irr x)) = Ok sl' ->
  tuple_slice (irr x) sl' = Ok new ->
  exists f, yields (ia_slice_by_chunk x sl) new (lead x) f /\
    forall i, valid (lead x) i -> rmap (@concat R) (tuple_slice (blocks (irr x) (arr x i)) sl') = Ok (f i).
Proof.
  intros H Hs E. assert (X : exists l, tuple_slice (pairs x) sl' = Ok l /\ map fst l = new).
  { rewrite <- (pairs_fst x H), tuple_slice_map in E. destruct (tuple_slice (pairs x) sl') as [l|]; [|discriminate]. injection E as <-. eauto. }
  destruct X as (l & El & <-). exists (fun i => concat (map (den_pair i) l)). split.
  - eapply (yields_from_pairs l).
    + unfold ia_slice_by_chunk. unfold resolved in Hs. destruct (slice_indices sl (length (irr x))) as [[[a b] st]|]; [|discriminate].
      cbn in Hs |- *. injection Hs as <-. rewrite E. cbn. rewrite <- (pairs_snd x H), tuple_slice_map, El. reflexivity.
    + apply Forall_forall. intros p Hp. pose proof (pairs_wf x H) as W. rewrite Forall_forall in W. eapply W, tuple_slice_In; eassumption.
    + reflexivity.
    + reflexivity.
  - intros i Hi. rewrite (pairs_blocks x i H Hi), tuple_slice_map, El. reflexivity.
Qed.

(* ---------- x[..., irreps] and whole-entry ranges ---------- *)
Lemma list_slice_map {A B} (f : A -> B) l a b : list_slice (map f l) a b = map f (list_slice l a b).
Proof. unfold list_slice. rewrite skipn_map, firstn_map. reflexivity. Qed.

Lemma dim_firstn_mono x a b : a <= b -> dim (firstn a x) <= dim (firstn b x).
Proof.
  intros H. replace (firstn a x) with (firstn a (firstn b x)) by (rewrite firstn_firstn; f_equal; lia).
  rewrite <- (firstn_skipn a (firstn b x)) at 2. rewrite dim_app. lia.
Qed.
Lemma dim_list_slice x a b : a <= b -> dim (list_slice x a b) = dim (firstn b x) - dim (firstn a x).
Proof.
  intros H. rewrite <- (firstn_skipn a (firstn b x)) at 1. rewrite dim_app, firstn_firstn, Nat.min_l by lia.
  unfold list_slice. replace (skipn a (firstn b x)) with (firstn (b - a) (skipn a x)); [lia|].
  rewrite firstn_skipn_comm. f_equal. f_equal. lia.
Qed.
Lemma dim_firstn_le x a : dim (firstn a x) <= dim x.
Proof. rewrite <- (firstn_skipn a x) at 2. rewrite dim_app. lia. Qed.

Lemma blocks_skipn {A} x (row : list A) k : skipn k (blocks x row) = blocks (skipn k x) (skipn (dim (firstn k x)) row).
Proof.
  revert x row. induction k as [|k IH]; intros x row; [reflexivity|]. destruct x as [|m x]; [reflexivity|]. cbn [skipn firstn blocks]. rewrite IH, dim_cons, skipn_skipn. reflexivity.
Qed.
Lemma blocks_firstn {A} x (row : list A) k : firstn k (blocks x row) = blocks (firstn k x) row.
Proof. revert x row. induction k as [|k IH]; intros [|m x] row; try reflexivity. cbn. rewrite IH. reflexivity. Qed.
Lemma blocks_short {A} x (row : list A) n : dim x <= n -> blocks x (firstn n row) = blocks x row.
Proof.
  revert row n. induction x as [|m x IH]; intros row n H; [reflexivity|]. rewrite dim_cons in H. cbn [blocks]. rewrite firstn_firstn, Nat.min_l by lia. f_equal.
  replace (skipn (mi_dim m) (firstn n row)) with (firstn (n - mi_dim m) (skipn (mi_dim m) row)).
  - apply IH. lia.
  - rewrite firstn_skipn_comm. f_equal. f_equal. lia.
Qed.
Lemma blocks_list_slice {A} x (row : list A) a b : a <= b ->
  list_slice (blocks x row) a b = blocks (list_slice x a b) (list_slice row (dim (firstn a x)) (dim (firstn b x))).
Proof.
  intros H. unfold list_slice at 1. rewrite blocks_skipn, blocks_firstn. change (firstn (b - a) (skipn a x)) with (list_slice x a b).
  unfold list_slice at 3. rewrite blocks_short; [reflexivity|]. rewrite dim_list_slice by exact H. lia.
Qed.

Lemma flags_ok_skipn s x fl a k : flags_ok s x fl a -> flags_ok s (skipn k x) (skipn k fl) (fun i => skipn (dim (firstn k x)) (a i)).
Proof.
  revert x fl a. induction k as [|k IH]; intros x fl a H; [exact H|]. destruct x as [|m x], fl as [|f fl]; cbn in H; try contradiction; [exact I|].
  cbn [skipn firstn]. destruct H as [_ H]. apply IH in H. eapply flags_ok_ext; [|exact H]. intros i Hi. cbv beta. rewrite skipn_skipn, dim_cons. reflexivity.
Qed.
Lemma flags_ok_firstn s x fl a k n : dim (firstn k x) <= n -> flags_ok s x fl a -> flags_ok s (firstn k x) (firstn k fl) (fun i => firstn n (a i)).
Proof.
  revert x fl a n. induction k as [|k IH]; intros x fl a n Hn H; [exact I|]. destruct x as [|m x], fl as [|f fl]; cbn [flags_ok] in H; try contradiction; [exact I|].
  cbn [firstn] in *. rewrite dim_cons in Hn. cbn [flags_ok]. destruct H as [H1 H2]. split.
  - intros Hf i Hi. rewrite firstn_firstn, Nat.min_l by lia. auto.
  - apply (IH _ _ _ (n - mi_dim m)) in H2; [|lia]. eapply flags_ok_ext; [|exact H2]. intros i Hi. cbn. rewrite firstn_skipn_comm. f_equal. f_equal. lia.
Qed.
Lemma chunks_ok_skipn s x fl cs a k : chunks_ok s x fl cs a -> chunks_ok s (skipn k x) (skipn k fl) (skipn k cs) (fun i => skipn (dim (firstn k x)) (a i)).
Proof.
  revert x fl cs a. induction k as [|k IH]; intros x fl cs a H; [exact H|]. destruct x as [|m x], fl as [|f fl], cs as [|c cs]; cbn [chunks_ok] in H; try contradiction; [exact I|].
  cbn [skipn firstn]. destruct H as [_ H]. apply IH in H. eapply chunks_ok_ext; [|exact H]. intros i Hi. cbv beta. rewrite skipn_skipn, dim_cons. reflexivity.
Qed.
Lemma chunks_ok_firstn s x fl cs a k n : dim (firstn k x) <= n -> chunks_ok s x fl cs a -> chunks_ok s (firstn k x) (firstn k fl) (firstn k cs) (fun i => firstn n (a i)).
Proof.
  revert x fl cs a n. induction k as [|k IH]; intros x fl cs a n Hn H; [exact I|]. destruct x as [|m x], fl as [|f fl], cs as [|c cs]; cbn [chunks_ok] in H; try contradiction; [exact I|].
  cbn [firstn] in *. rewrite dim_cons in Hn. cbn [chunks_ok]. destruct H as [H1 H2]. split.
  - destruct c as [c|]; [|exact H1]. cbn in *. destruct H1 as (F & W & V). split; [exact F|]. split; [exact W|].
    intros i Hi. rewrite V by exact Hi. rewrite firstn_firstn, Nat.min_l by lia. reflexivity.
  - apply (IH _ _ _ _ (n - mi_dim m)) in H2; [|lia]. eapply chunks_ok_ext; [|exact H2]. intros i Hi. cbn. rewrite firstn_skipn_comm. f_equal. f_equal. lia.
Qed.

(* entries a..b of x as an IrrepsArray, the way __getitem__ builds it *)
Lemma entry_range_yields x a b w : coherent x -> a <= b -> w = dim (firstn b (irr x)) - dim (firstn a (irr x)) ->
  yields (mkIA (list_slice (irr x) a b) (lead x) w
     (fun j => list_slice (arr x j) (dim (firstn a (irr x))) (dim (firstn b (irr x))))
     (Some (list_slice (zero_flags x) a b)) (Some (list_slice (chunks x) a b)))
   (list_slice (irr x) a b) (lead x) (fun i => list_slice (arr x i) (dim (firstn a (irr x))) (dim (firstn b (irr x)))).
Proof.
  intros H Hab ->.
  assert (D : dim (firstn (b - a) (skipn a (irr x))) = dim (firstn b (irr x)) - dim (firstn a (irr x))) by (apply dim_list_slice; exact Hab).
  assert (CO : chunks_ok (lead x) (list_slice (irr x) a b) (list_slice (zero_flags x) a b) (list_slice (chunks x) a b)
     (fun i => list_slice (arr x i) (dim (firstn a (irr x))) (dim (firstn b (irr x))))).
  { apply (chunks_ok_firstn (lead x) (skipn a (irr x)) (skipn a (zero_flags x)) (skipn a (chunks x)) (fun i => skipn (dim (firstn a (irr x))) (arr x i))); [lia|].
    apply chunks_ok_skipn, chunks_chunks_ok, H. }
  assert (FO : flags_ok (lead x) (list_slice (irr x) a b) (list_slice (zero_flags x) a b)
     (fun i => list_slice (arr x i) (dim (firstn a (irr x))) (dim (firstn b (irr x))))).
  { apply (flags_ok_firstn (lead x) (skipn a (irr x)) (skipn a (zero_flags x)) (fun i => skipn (dim (firstn a (irr x))) (arr x i))); [lia|].
    apply flags_ok_skipn, H. }
  eexists. split.
  - apply mkIA_ok.
    + rewrite dim_list_slice by exact Hab. reflexivity.
    + split; [eapply wf_shapes_ok, chunks_ok_wf, CO|]. apply chunks_ok_length in CO. tauto.
    + apply flags_ok_length in FO. exact FO.
  - cbn [irr lead arr]. split; [reflexivity|]. split; [reflexivity|]. split; [|reflexivity]. unfold coherent, zero_flags. cbn [irr lead arr zf chs]. split; [|split; assumption].
    intros i Hi. rewrite dim_list_slice by exact Hab. unfold list_slice. rewrite firstn_length, skipn_length. destruct H as [H _]. rewrite (H i Hi).
    pose proof (dim_firstn_le (irr x) b). lia.
Qed.

Lemma getitem_irreps_yields x target k : coherent x ->
  match_positions (irr x) target = [k] ->
  yields (ia_getitem_irreps x target) target (lead x)
    (fun i => list_slice (arr x i) (dim (firstn k (irr x))) (dim (firstn (k + length target) (irr x)))).
Proof.
  intros H E. unfold ia_getitem_irreps. rewrite E.
  assert (T : list_slice (irr x) k (k + length target) = target).
  { assert (In k (match_positions (irr x) target)) by (rewrite E; left; reflexivity). unfold match_positions in H0. apply filter_In in H0 as [_ H0]. apply irreps_eqb_eq, H0. }
  rewrite Nat.min_l by apply dim_firstn_le.
  pose proof (entry_range_yields x k (k + length target) _ H ltac:(lia) eq_refl) as Y. rewrite T in Y. exact Y.
Qed.

(* ---------- concatenate on the last axis ---------- *)
Lemma flags_ok_app s x y fx fy a b : (forall i, valid s i -> length (a i) = dim x) ->
  flags_ok s x fx a -> flags_ok s y fy b -> flags_ok s (x ++ y) (fx ++ fy) (fun i => a i ++ b i).
Proof.
  revert fx a. induction x as [|m x IH]; intros [|f fx] a L Hx Hy; cbn [flags_ok] in Hx; try contradiction.
  - cbn. eapply flags_ok_ext; [|exact Hy]. intros i Hi. cbn. specialize (L i Hi). destruct (a i); [reflexivity|discriminate].
  - cbn [app flags_ok]. destruct Hx as [H1 H2]. split.
    + intros Hf i Hi. rewrite firstn_app. specialize (L i Hi). rewrite dim_cons in L. replace (mi_dim m - length (a i)) with 0 by lia. rewrite app_nil_r. auto.
    + assert (L' : forall i, valid s i -> length (skipn (mi_dim m) (a i)) = dim x) by (intros i Hi; rewrite skipn_length, (L i Hi), dim_cons; lia).
      eapply flags_ok_ext; [|exact (IH _ _ L' H2 Hy)].
      intros i Hi. cbv beta. rewrite skipn_app. specialize (L i Hi). rewrite dim_cons in L. replace (mi_dim m - length (a i)) with 0 by lia. reflexivity.
Qed.
Lemma chunks_ok_app s x y fx fy cx cy a b : (forall i, valid s i -> length (a i) = dim x) ->
  chunks_ok s x fx cx a -> chunks_ok s y fy cy b -> chunks_ok s (x ++ y) (fx ++ fy) (cx ++ cy) (fun i => a i ++ b i).
Proof.
  revert fx cx a. induction x as [|m x IH]; intros [|f fx] [|c cx] a L Hx Hy; cbn [chunks_ok] in Hx; try contradiction.
  - cbn. eapply chunks_ok_ext; [|exact Hy]. intros i Hi. cbn. specialize (L i Hi). destruct (a i); [reflexivity|discriminate].
  - cbn [app chunks_ok]. destruct Hx as [H1 H2]. split.
    + destruct c as [c|]; [|exact H1]. cbn [chunk_ok] in *. destruct H1 as (F & W & V). split; [exact F|]. split; [exact W|]. intros i Hi. rewrite V by exact Hi.
      rewrite firstn_app. specialize (L i Hi). rewrite dim_cons in L. replace (mi_dim m - length (a i)) with 0 by lia. rewrite app_nil_r. reflexivity.
    + assert (L' : forall i, valid s i -> length (skipn (mi_dim m) (a i)) = dim x) by (intros i Hi; rewrite skipn_length, (L i Hi), dim_cons; lia).
      eapply chunks_ok_ext; [|exact (IH _ _ _ L' H2 Hy)].
      intros i Hi. cbv beta. rewrite skipn_app. specialize (L i Hi). rewrite dim_cons in L. replace (mi_dim m - length (a i)) with 0 by lia. reflexivity.
Qed.

Lemma concat_parts s xs : Forall (fun y => coherent y /\ lead y = s) xs ->
  (forall i, valid s i -> length (flat_map (fun y => arr y i) xs) = dim (flat_map irr xs)) /\
  flags_ok s (flat_map irr xs) (flat_map zero_flags xs) (fun i => flat_map (fun y => arr y i) xs) /\
  chunks_ok s (flat_map irr xs) (flat_map zero_flags xs) (flat_map chunks xs) (fun i => flat_map (fun y => arr y i) xs).
Proof.
  induction 1 as [|x xs [Hc <-] H IH]; [repeat split; reflexivity|]. destruct IH as (I1 & I2 & I3). cbn [flat_map].
  split; [|split].
  - intros i Hi. rewrite app_length, dim_app, (I1 i Hi). destruct Hc as [Hc _]. rewrite (Hc i Hi). reflexivity.
  - apply flags_ok_app; [apply Hc|apply Hc|exact I2].
  - apply chunks_ok_app; [apply Hc|apply chunks_chunks_ok, Hc|exact I3].
Qed.

Lemma dim_flat_map_sum xs : sum (map (fun y => dim (irr y)) xs) = dim (flat_map irr xs).
Proof. induction xs as [|x xs IH]; [reflexivity|]. cbn [map flat_map]. rewrite dim_app, <- IH. reflexivity. Qed.

Lemma concat_last_yields s xs : xs <> [] -> Forall (fun y => coherent y /\ lead y = s) xs ->
  yields (concat_last xs) (flat_map irr xs) s (fun i => flat_map (fun y => arr y i) xs).
Proof.
  intros Hne H. destruct (concat_parts s xs H) as (I1 & I2 & I3). unfold concat_last. destruct xs as [|x xs]; [congruence|].
  assert (E : forallb (fun y => shape_eqb (lead y) (lead x)) (x :: xs) = true).
  { apply forallb_forall. intros y Hy. rewrite Forall_forall in H. apply shape_eqb_eq. destruct (H y Hy) as [_ ->]. destruct (H x (or_introl eq_refl)) as [_ ->]. reflexivity. }
  rewrite E. rewrite dim_flat_map_sum. rewrite mkIA_ok; [|reflexivity| |].
  - inversion H as [|? ? [_ <-] _]; subst. eexists. split; [reflexivity|]. cbn [irr lead arr]. split; [reflexivity|]. split; [reflexivity|]. split; [|reflexivity].
    unfold coherent, zero_flags. cbn [irr lead arr zf chs]. split; [exact I1|split; [exact I2|exact I3]].
  - split; [eapply wf_shapes_ok, chunks_ok_wf, I3|]. apply chunks_ok_length in I3. tauto.
  - apply flags_ok_length in I2. exact I2.
Qed.
