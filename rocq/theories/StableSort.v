(* Sorting the entries of an array is a stable sort of (entry, block) pairs by irrep; it commutes with filtering by irrep. *)
From Coq Require Import Reals Lra Permutation Sorted.
From Verif Require Import PyBase PermModel PermProofs IrrepsModel IrrepsProofs IrrepsProofs2 ArrayModel ArrayProofs ArrayOps RechunkProofs EquivProofs.
Open Scope nat_scope.

Section Ssort.
Context {B : Type}.
Notation pair_t := (mulirrep * B)%type.
Definition lt_ir (p q : pair_t) : bool := ir_ltb (snd (fst p)) (snd (fst q)).
Definition ssort (l : list pair_t) : list pair_t := sorted_by lt_ir l.

Lemma insert_map {A C} (ltb : A -> A -> bool) (ltb' : C -> C -> bool) (f : A -> C) a l : (forall b, In b l -> ltb b a = ltb' (f b) (f a)) -> map f (insert_sorted ltb a l) = insert_sorted ltb' (f a) (map f l).
Proof.
  induction l as [|b l IH]; intros H; [reflexivity|]. cbn [insert_sorted map]. rewrite <- (H b (or_introl eq_refl)). destruct (ltb b a); [|reflexivity]. cbn [map]. rewrite IH by (intros c Hc; apply H; right; exact Hc). reflexivity.
Qed.
Lemma sort_is_ssort (l : list pair_t) d : map (fun k => nth k l d) (sort_inv_list (map fst l)) = ssort l.
Proof.
  unfold sort_inv_list, sorted_entries, sort_entries, enumerate. rewrite map_map.
  assert (G : forall l o, map (fun e : sort_entry => nth (snd (fst e) - o) l d) (sorted_by entry_ltb (map (fun '(i, (mul, ir)) => (ir, i, mul)) (combine (seq o (length (map fst l))) (map fst l)))) = ssort l).
  { clear l. induction l as [|[[m ir] b] l IH]; intros o; [reflexivity|]. cbn [map fst length seq combine]. unfold sorted_by at 1. cbn [fold_right]. fold (sorted_by entry_ltb (map (fun '(i, (mul, ir)) => (ir, i, mul)) (combine (seq (S o) (length (map fst l))) (map fst l)))).
    unfold ssort, sorted_by at 2. cbn [fold_right]. fold (sorted_by lt_ir l). fold (ssort l). specialize (IH (S o)).
    set (E := sorted_by entry_ltb _) in *. assert (I : forall e, In e E -> o < snd (fst e) /\ snd (fst e) - S o < length l /\ snd (fst (nth (snd (fst e) - S o) l d)) = fst (fst e)).
    { intros e He. apply (Permutation_in _ (sorted_by_perm _ _)) in He. apply in_map_iff in He as ([i [mul ir']] & <- & Hi). apply In_nth_error in Hi as [n Hn]. rewrite nth_error_combine in Hn.
      destruct (nth_error (seq (S o) (length (map fst l))) n) as [i'|] eqn:En; [|discriminate]. destruct (nth_error (map fst l) n) as [q|] eqn:Eq; [|discriminate]. injection Hn as -> ->. rewrite map_length in En.
      assert (Ln : n < length l) by (rewrite <- (map_length fst); apply nth_error_Some; congruence). pose proof (nth_error_nth _ _ 0 En) as En'. rewrite seq_nth in En' by exact Ln. subst i. cbn [fst snd]. replace (S o + n - S o) with n by lia. split; [lia|]. split; [exact Ln|].
      rewrite nth_error_map in Eq. destruct (nth_error l n) as [p|] eqn:Ep; [|discriminate]. cbn in Eq. injection Eq as Eq. rewrite (nth_error_nth _ _ _ Ep), Eq. reflexivity. }
    rewrite <- IH. rewrite (insert_map entry_ltb lt_ir (fun e => nth (snd (fst e) - o) ((m, ir, b) :: l) d)).
    - cbn [fst snd]. rewrite Nat.sub_diag. cbn [nth]. f_equal. apply map_ext_in. intros e He. destruct (I e He) as (I1 & _). replace (snd (fst e) - o) with (S (snd (fst e) - S o)) by lia. reflexivity.
    - intros e He. destruct (I e He) as (I1 & I2 & I3). cbn [fst snd]. rewrite Nat.sub_diag. replace (snd (fst e) - o) with (S (snd (fst e) - S o)) by lia. cbn [nth]. unfold lt_ir. rewrite I3. cbn [fst snd].
      destruct e as [[ire ie] me]. cbn [fst snd] in *. unfold entry_ltb. destruct (irrep_eqb ire ir) eqn:Q; cbn [negb]; [|reflexivity]. apply irrep_eqb_eq in Q as ->. rewrite ir_ltb_irrefl. destruct (Nat.eqb_spec ie o); [lia|]. cbn [negb]. apply Nat.ltb_ge. lia. }
  rewrite <- (G l 0). apply map_ext. intros [[a i] m]. cbn [fst snd]. rewrite Nat.sub_0_r. reflexivity.
Qed.

Definition le_ir (p q : pair_t) : Prop := ir_ltb (snd (fst q)) (snd (fst p)) = false.
Lemma le_ir_trans p q r : le_ir p q -> le_ir q r -> le_ir p r.
Proof.
  unfold le_ir. intros H1 H2. destruct (ir_ltb (snd (fst r)) (snd (fst p))) eqn:E; [|reflexivity]. exfalso.
  destruct (ir_ltb_total (snd (fst q)) (snd (fst r))) as [Q|[Q|Q]]; [pose proof (ir_ltb_trans _ _ _ Q E); congruence|rewrite Q in H1; congruence|congruence].
Qed.
Lemma insert_ssorted a l : StronglySorted le_ir l -> StronglySorted le_ir (insert_sorted lt_ir a l).
Proof.
  induction 1 as [|b l H IH Hb]; cbn [insert_sorted]; [repeat constructor|]. destruct (lt_ir b a) eqn:E.
  - constructor; [exact IH|]. rewrite Forall_forall in *. intros c Hc. apply (Permutation_in _ (insert_sorted_perm lt_ir a l)) in Hc. destruct Hc as [<-|Hc]; [apply ir_ltb_asym, E|auto].
  - constructor; [constructor; assumption|]. constructor; [exact E|]. rewrite Forall_forall in *. intros c Hc. apply (le_ir_trans a b c); [exact E|auto].
Qed.
Lemma ssort_sorted l : StronglySorted le_ir (ssort l).
Proof. induction l as [|a l IH]; [constructor|]. cbn. apply insert_ssorted, IH. Qed.
Lemma insert_first a l : Forall (le_ir a) l -> insert_sorted lt_ir a l = a :: l.
Proof. intros H. destruct H as [|b l H _]; [reflexivity|]. cbn [insert_sorted]. unfold le_ir in H. unfold lt_ir. rewrite H. reflexivity. Qed.
Lemma ssort_id l : StronglySorted le_ir l -> ssort l = l.
Proof. induction 1 as [|a l H IH Ha]; [reflexivity|]. unfold ssort, sorted_by. cbn [fold_right]. fold (sorted_by lt_ir l). fold (ssort l). rewrite IH. apply insert_first, Ha. Qed.
Lemma ssort_idem l : ssort (ssort l) = ssort l.
Proof. apply ssort_id, ssort_sorted. Qed.
Lemma filter_insert P a l : StronglySorted le_ir l -> filter P (insert_sorted lt_ir a l) = if P a then insert_sorted lt_ir a (filter P l) else filter P l.
Proof.
  induction 1 as [|b l H IH Hb]; [cbn; destruct (P a); reflexivity|]. cbn [insert_sorted]. destruct (lt_ir b a) eqn:E.
  - cbn [filter]. rewrite IH. destruct (P b), (P a); try reflexivity. cbn [insert_sorted]. rewrite E. reflexivity.
  - cbn [filter]. destruct (P a); [|reflexivity]. symmetry. apply insert_first. apply Forall_forall. intros c Hc. rewrite Forall_forall in Hb. destruct (P b).
    + destruct Hc as [<-|Hc]; [exact E|]. apply filter_In in Hc as [Hc _]. apply (le_ir_trans a b c); [exact E|auto].
    + apply filter_In in Hc as [Hc _]. apply (le_ir_trans a b c); [exact E|auto].
Qed.
Lemma ssort_filter P l : filter P (ssort l) = ssort (filter P l).
Proof.
  induction l as [|a l IH]; [reflexivity|]. unfold ssort, sorted_by. cbn [fold_right filter]. fold (sorted_by lt_ir l). fold (ssort l). rewrite filter_insert by apply ssort_sorted. rewrite IH. destruct (P a); reflexivity.
Qed.
Lemma ssort_perm l : Permutation (ssort l) l.
Proof. apply sorted_by_perm. Qed.
End Ssort.

(* ---------- rows ---------- *)
Definition labelled (x : irreps) (row : list R) : list (mulirrep * list R) := combine x (blocks x row).
Definition unlabel (l : list (mulirrep * list R)) : list R := concat (map snd l).
Definition sort_row (x : irreps) (row : list R) : list R := concat (map (fun k => nth k (blocks x row) []) (sort_inv_list x)).
Definition wide (l : list (mulirrep * list R)) : Prop := Forall (fun p => length (snd p) = mi_dim (fst p)) l.

Lemma labelled_fst x row : map fst (labelled x row) = x.
Proof. apply combine_map_fst. rewrite blocks_length. reflexivity. Qed.
Lemma labelled_snd x row : map snd (labelled x row) = blocks x row.
Proof. apply combine_map_snd. rewrite blocks_length. reflexivity. Qed.
Lemma labelled_wide x row : length row = dim x -> wide (labelled x row).
Proof.
  intros L. unfold wide, labelled. pose proof (blocks_widths x row L) as H. revert H. generalize (blocks x row). intros bs H. clear L. induction H as [|m b x bs H H' IH]; cbn [combine]; constructor; [exact H|exact IH].
Qed.
Lemma unlabel_labelled x row : length row = dim x -> unlabel (labelled x row) = row.
Proof. intros L. unfold unlabel. rewrite labelled_snd. apply concat_blocks, L. Qed.
Lemma labelled_unlabel l : wide l -> labelled (map fst l) (unlabel l) = l.
Proof.
  intros W. unfold labelled, unlabel. rewrite blocks_concat.
  - induction l as [|[m b] l IH]; [reflexivity|]. cbn [map combine fst snd]. f_equal. apply IH. inversion W; assumption.
  - induction W; cbn [map]; constructor; auto.
Qed.
Lemma sort_irreps_ssort x row : sort_irreps x = map fst (ssort (labelled x row)).
Proof.
  rewrite sort_irreps_map. rewrite <- (sort_is_ssort (labelled x row) (dflt, [])). rewrite labelled_fst, map_map. apply map_ext. intros k. rewrite <- (map_nth fst). rewrite labelled_fst. reflexivity.
Qed.
Lemma sort_row_ssort x row : sort_row x row = unlabel (ssort (labelled x row)).
Proof.
  unfold sort_row, unlabel. rewrite <- (sort_is_ssort (labelled x row) (dflt, [])). rewrite labelled_fst, map_map. f_equal. apply map_ext. intros k. rewrite <- (map_nth snd). rewrite labelled_snd. reflexivity.
Qed.
Lemma ssort_wide l : wide l -> wide (ssort l).
Proof. intros W. unfold wide in *. rewrite Forall_forall in *. intros p Hp. apply W. apply (Permutation_in _ (ssort_perm l) Hp). Qed.
Lemma labelled_sorted x row : length row = dim x -> labelled (sort_irreps x) (sort_row x row) = ssort (labelled x row).
Proof. intros L. rewrite (sort_irreps_ssort x row), sort_row_ssort. apply labelled_unlabel, ssort_wide, labelled_wide, L. Qed.
Lemma sort_row_length x row : length row = dim x -> length (sort_row x row) = dim (sort_irreps x).
Proof.
  intros L. rewrite sort_row_ssort, (sort_irreps_ssort x row). pose proof (ssort_wide _ (labelled_wide x row L)) as W. clear L. induction W as [|[m b] l H W IH]; [reflexivity|].
  unfold unlabel in *. cbn [map concat fst snd] in *. rewrite app_length, dim_cons, IH, H. reflexivity.
Qed.
Lemma sort_row_idem x row : length row = dim x -> sort_row (sort_irreps x) (sort_row x row) = sort_row x row.
Proof. intros L. rewrite (sort_row_ssort (sort_irreps x)), labelled_sorted by exact L. rewrite ssort_idem, <- sort_row_ssort. reflexivity. Qed.
Lemma sort_irreps_idem x : sort_irreps (sort_irreps x) = sort_irreps x.
Proof.
  pose (row := repeat 0%R (dim x)). assert (L : length row = dim x) by apply repeat_length. rewrite (sort_irreps_ssort (sort_irreps x) (sort_row x row)), labelled_sorted by exact L. rewrite ssort_idem, <- sort_irreps_ssort. reflexivity.
Qed.

(* rows of equivalent irreps: keeping the copies whose irrep satisfies P *)
Fixpoint keep_flat (P : irrep -> bool) (l : list irrep) (row : list R) : list R :=
  match l with [] => [] | ir :: l => (if P ir then firstn (ir_dim ir) row else []) ++ keep_flat P l (skipn (ir_dim ir) row) end.
Lemma keep_flat_repeat P ir n l row : keep_flat P (repeat ir n ++ l) row = (if P ir then firstn (n * ir_dim ir) row else []) ++ keep_flat P l (skipn (n * ir_dim ir) row).
Proof.
  revert row. induction n as [|n IH]; intros row; [cbn; destruct (P ir); reflexivity|]. cbn [repeat app keep_flat]. rewrite IH, skipn_skipn. replace (n * ir_dim ir + ir_dim ir) with (S n * ir_dim ir) by (cbn; lia). rewrite app_assoc. f_equal. destruct (P ir); [|reflexivity].
  replace (S n * ir_dim ir) with (ir_dim ir + n * ir_dim ir) by (cbn; lia). generalize (ir_dim ir) (n * ir_dim ir). clear. intros a b. revert a. induction row as [|r row IH]; intros [|a]; cbn; try reflexivity; [rewrite !firstn_nil; reflexivity|]. f_equal. apply IH.
Qed.
Lemma keep_flat_select P x row : unlabel (filter (fun p => P (snd (fst p))) (labelled x row)) = keep_flat P (flat x) row.
Proof.
  revert row. induction x as [|[m ir] x IH]; intros row; [reflexivity|]. unfold labelled in *. cbn [blocks combine filter fst snd]. change (flat ((m, ir) :: x)) with (repeat ir m ++ flat x). rewrite keep_flat_repeat. change (mi_dim (m, ir)) with (m * ir_dim ir). rewrite <- IH. destruct (P ir); reflexivity.
Qed.
