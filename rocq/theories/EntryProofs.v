(* Entry-wise view of rows: entry k of the irreps, copy u, component c.  [rowof x F] is the row whose entry (k, u, c)
   is F k u c; every row of the right length is of that form. *)
From Verif Require Import PyBase PermModel PermProofs IrrepsModel IrrepsProofs IrrepsProofs2 ArrayModel ArrayProofs ArrayOps BlockProofs LeadModel LeadProofs StackProofs BilinProofs ActProofs EquivProofs2 SumR.
From Coq Require Import Reals Lra.
Open Scope nat_scope.

Definition tab {A} (n : nat) (f : nat -> A) : list A := map f (seq 0 n).
Definition tab2 {A} (n m : nat) (f : nat -> nat -> A) : list (list A) := tab n (fun u => tab m (f u)).
Lemma tab_length {A} n (f : nat -> A) : length (tab n f) = n.
Proof. unfold tab. rewrite map_length, seq_length. reflexivity. Qed.
Lemma nth_tab {A} n (f : nat -> A) k d : k < n -> nth k (tab n f) d = f k.
Proof. intros H. unfold tab. rewrite (nth_indep _ d (f 0)) by (rewrite map_length, seq_length; exact H). rewrite map_nth, seq_nth by exact H. reflexivity. Qed.
Lemma tab_ext {A} n (f g : nat -> A) : (forall k, k < n -> f k = g k) -> tab n f = tab n g.
Proof. intros H. apply map_ext_in. intros k Hk. apply H. apply in_seq in Hk. lia. Qed.
Lemma tab_nth {A} (l : list A) d : tab (length l) (fun k => nth k l d) = l.
Proof. unfold tab. apply map_nth_seq. Qed.
Lemma tab2_wf {A} n m (f : nat -> nat -> A) : length (tab2 n m f) = n /\ Forall (fun r => length r = m) (tab2 n m f).
Proof. split; [apply tab_length|]. unfold tab2, tab at 1. apply Forall_map, Forall_forall. intros u _. apply tab_length. Qed.
Lemma tab2_ext {A} n m (f g : nat -> nat -> A) : (forall u c, u < n -> c < m -> f u c = g u c) -> tab2 n m f = tab2 n m g.
Proof. intros H. apply tab_ext. intros u Hu. apply tab_ext. intros c Hc. apply H; assumption. Qed.
Lemma tab2_nth {A} n m (rows : list (list A)) d : length rows = n -> Forall (fun r => length r = m) rows -> tab2 n m (fun u c => nth c (nth u rows []) d) = rows.
Proof.
  intros <- F. transitivity (tab (length rows) (fun u => nth u rows [])); [|apply tab_nth]. apply tab_ext. intros u Hu.
  rewrite Forall_forall in F. rewrite <- (F (nth u rows [])) by (apply nth_In, Hu). apply tab_nth.
Qed.
Lemma concat_length_uniform {A} m (rows : list (list A)) : Forall (fun r => length r = m) rows -> length (concat rows) = length rows * m.
Proof. induction 1 as [|r rows H F IH]; [reflexivity|]. cbn [concat length]. rewrite app_length, IH, H. lia. Qed.
Lemma nth_concat {A} m (rows : list (list A)) u c d : Forall (fun r => length r = m) rows -> c < m -> u < length rows -> nth (u * m + c) (concat rows) d = nth c (nth u rows []) d.
Proof.
  intros F Hc. revert u. induction F as [|r rows H F IH]; intros u Hu; cbn [length] in Hu; [lia|]. cbn [concat]. destruct u as [|u].
  - rewrite app_nth1 by lia. reflexivity.
  - rewrite app_nth2 by lia. rewrite H. replace (S u * m + c - m) with (u * m + c) by lia. apply IH. lia.
Qed.

Fixpoint rowof (x : irreps) (F : nat -> nat -> nat -> R) : list R :=
  match x with
  | [] => []
  | m :: x => concat (tab2 (fst m) (ir_dim (snd m)) (F 0)) ++ rowof x (fun k => F (S k))
  end.
(* entry (k, u, c) of a row *)
Definition entry (x : irreps) (row : list R) (k u c : nat) : R :=
  nth (u * ir_dim (snd (nth k x (0, Irrep 0 Even))) + c) (nth k (blocks x row) []) 0%R.
(* (k, u, c) addresses an entry of x *)
Definition inside (x : irreps) (k u c : nat) : Prop := exists mul ir, nth_error x k = Some (mul, ir) /\ u < mul /\ c < ir_dim ir.

Lemma rowof_length x F : length (rowof x F) = dim x.
Proof.
  revert F. induction x as [|m x IH]; intros F; [reflexivity|]. cbn [rowof]. rewrite app_length, IH, dim_cons. destruct (tab2_wf (fst m) (ir_dim (snd m)) (F 0)) as [L W].
  rewrite (concat_length_uniform _ _ W), L. reflexivity.
Qed.
Lemma rowof_ext x F G : (forall k u c, inside x k u c -> F k u c = G k u c) -> rowof x F = rowof x G.
Proof.
  revert F G. induction x as [|[mul ir] x IH]; intros F G H; [reflexivity|]. cbn [rowof]. f_equal.
  - f_equal. apply tab2_ext. intros u c Hu Hc. apply H. exists mul, ir. auto.
  - apply IH. intros k u c (m & i & E & B). apply H. exists m, i. auto.
Qed.
Lemma blocks_rowof x F : blocks x (rowof x F) = map (fun '(k, m) => concat (tab2 (fst m) (ir_dim (snd m)) (F k))) (enumerate x).
Proof.
  unfold enumerate. change (fun '(k, m) => concat (tab2 (fst m) (ir_dim (snd m)) (F k))) with (fun '(k, m) => concat (tab2 (fst m) (ir_dim (snd m)) (F (0 + k)))) at 1.
  assert (G : forall x a F, blocks x (rowof x (fun k => F (a + k))) = map (fun '(k, m) => concat (tab2 (fst m) (ir_dim (snd m)) (F k))) (combine (seq a (length x)) x)).
  { clear. induction x as [|m x IH]; intros a F; [reflexivity|]. cbn [rowof blocks length seq combine map]. destruct (tab2_wf (fst m) (ir_dim (snd m)) (F (a + 0))) as [L W].
    assert (E : length (concat (tab2 (fst m) (ir_dim (snd m)) (F (a + 0)))) = mi_dim m) by (rewrite (concat_length_uniform _ _ W), L; reflexivity).
    rewrite firstn_length_app, skipn_length_app by exact E. rewrite Nat.add_0_r. f_equal. rewrite <- IH. f_equal. apply rowof_ext. intros. f_equal. lia. }
  exact (G x 0 F).
Qed.
Lemma nth_enumerate {A} (l : list A) k d : k < length l -> nth k (enumerate l) d = (k, nth k l (snd d)).
Proof. intros H. unfold enumerate. destruct d as [d0 d]. rewrite combine_nth by apply seq_length. rewrite seq_nth by exact H. reflexivity. Qed.
Lemma entry_rowof x F k u c : inside x k u c -> entry x (rowof x F) k u c = F k u c.
Proof.
  intros (mul & ir & E & Hu & Hc). assert (Hk : k < length x) by (apply nth_error_Some; congruence). unfold entry. rewrite blocks_rowof. rewrite (nth_error_nth _ _ _ E). cbn [snd].
  set (f := fun '(k, m) => _). rewrite (nth_indep _ [] (f (0, (0, Irrep 0 Even)))) by (rewrite map_length; unfold enumerate; rewrite combine_length, seq_length; lia).
  rewrite map_nth. rewrite nth_enumerate by exact Hk. rewrite (nth_error_nth _ _ _ E). unfold f. cbn [fst snd].
  destruct (tab2_wf mul (ir_dim ir) (F k)) as [L W]. rewrite (nth_concat (ir_dim ir)) by (auto; lia). unfold tab2. rewrite nth_tab by exact Hu. rewrite nth_tab by exact Hc. reflexivity.
Qed.
Lemma rowof_entry x row : length row = dim x -> rowof x (entry x row) = row.
Proof.
  revert row. induction x as [|m x IH]; intros row L; [destruct row; [reflexivity|discriminate]|]. rewrite dim_cons in L. cbn [rowof]. transitivity (firstn (mi_dim m) row ++ skipn (mi_dim m) row); [|apply firstn_skipn]. f_equal.
  - transitivity (concat (tab2 (fst m) (ir_dim (snd m)) (fun u c => nth c (nth u (group_rows (fst m) (ir_dim (snd m)) (firstn (mi_dim m) row)) []) 0%R))).
    + f_equal. apply tab2_ext. intros u c Hu Hc. unfold entry. cbn [nth blocks]. rewrite <- (nth_concat (ir_dim (snd m))); [|apply group_rows_widths; rewrite firstn_length; unfold mi_dim in *; lia|exact Hc|rewrite group_rows_length; exact Hu].
      rewrite concat_group_rows; [reflexivity|]. rewrite firstn_length. unfold mi_dim in *. lia.
    + rewrite tab2_nth; [|apply group_rows_length|apply group_rows_widths; rewrite firstn_length; unfold mi_dim in *; lia]. apply concat_group_rows. rewrite firstn_length. unfold mi_dim in *. lia.
  - transitivity (rowof x (entry x (skipn (mi_dim m) row))); [|apply IH; rewrite skipn_length; lia]. apply rowof_ext. intros k u c _. reflexivity.
Qed.
Lemma rows_equal x r r' : length r = dim x -> length r' = dim x -> (forall k u c, inside x k u c -> entry x r k u c = entry x r' k u c) -> r = r'.
Proof. intros L L' H. rewrite <- (rowof_entry x r L), <- (rowof_entry x r' L'). apply rowof_ext, H. Qed.

(* ---------- chunks ---------- *)
Definition centry (c : option chunk) (i : idx) (u k : nat) : R := match c with None => 0%R | Some c => nth k (nth u (c_val c i) []) 0%R end.
Lemma den_tab s m c i : wf_opt s m c -> valid s i -> den m c i = concat (tab2 (fst m) (ir_dim (snd m)) (centry c i)).
Proof.
  intros W Hi. destruct c as [c|]; cbn [den centry].
  - destruct W as (_ & _ & _ & W). destruct (W i Hi) as [L F]. unfold centry. f_equal. symmetry. apply tab2_nth; assumption.
  - assert (Q : tab2 (fst m) (ir_dim (snd m)) (centry None i) = zeros_rows (fst m) (ir_dim (snd m))).
    { unfold tab2, zeros_rows. generalize (ir_dim (snd m)) as d, (fst m) as n. intros d n. assert (T : forall A (a : A) n k, map (fun _ => a) (seq k n) = repeat a n) by (clear; intros A a n; induction n as [|n IH]; intros k; [reflexivity|cbn [seq map repeat]; rewrite IH; reflexivity]).
      unfold tab, centry. rewrite T, T. reflexivity. }
    rewrite Q. symmetry. apply concat_zeros.
Qed.
Lemma from_chunks_rowof y cs s : Forall2 (wf_opt s) y cs -> yields (from_chunks y cs s true) y s (fun i => rowof y (fun k => centry (nth k cs None) i)).
Proof.
  intros W. assert (L : length y = length cs) by (eapply Forall2_length, W).
  eapply (yields_from_pairs (combine y cs)).
  - rewrite combine_map_fst, combine_map_snd by exact L. reflexivity.
  - induction W; [constructor|]. cbn [combine]. constructor; [exact H|apply IHW; cbn in L; lia].
  - rewrite combine_map_fst by exact L. reflexivity.
  - intros i Hi. clear L. induction W as [|m c y cs Hc W IH]; [reflexivity|]. cbn [rowof combine map concat]. f_equal; [|exact IH].
    unfold den_pair. cbn [fst snd]. symmetry. change (nth 0 (c :: cs) None) with c. eapply den_tab; eassumption.
Qed.
Lemma entry_chunks x i k u c : coherent x -> valid (lead x) i -> inside (irr x) k u c -> centry (nth k (chunks x) None) i u c = entry (irr x) (arr x i) k u c.
Proof.
  intros H Hi Hin. rewrite <- (rowof_entry (irr x) (arr x i)) by (apply H, Hi).
  assert (E : arr x i = rowof (irr x) (fun k => centry (nth k (chunks x) None) i)).
  { rewrite <- (chunks_row_arr x H i Hi). pose proof (chunks_wf x H) as W. unfold chunks_row. clear Hin. induction W as [|m c' y cs Hc W IH]; [reflexivity|]. cbn [combine flat_map rowof]. f_equal; [|exact IH].
    change (nth 0 (c' :: cs) None) with c'. eapply den_tab; eassumption. }
  rewrite rowof_entry by (apply H, Hi). rewrite E. symmetry. apply (entry_rowof (irr x) (fun k => centry (nth k (chunks x) None) i)). exact Hin.
Qed.

(* ---------- the group action entry by entry ---------- *)
Definition mat_at (M : list (list R)) (a b : nat) : R := nth b (nth a M []) 0%R.
Lemma dotR_rsum u v n : length u = n -> length v = n -> dotR u v = rsum n (fun k => nth k u 0 * nth k v 0)%R.
Proof.
  revert u v. induction n as [|n IH]; intros [|a u] [|b v] Lu Lv; try discriminate; [reflexivity|]. rewrite rsum_S_l, dotR_cons. cbn [nth]. f_equal. apply IH; cbn in *; lia.
Qed.
Lemma matvec_tab M v n : length M = n -> Forall (fun r => length r = n) M -> length v = n -> matvec M v = tab n (fun a => rsum n (fun b => mat_at M a b * nth b v 0)%R).
Proof.
  intros L F Lv. unfold matvec. rewrite <- (tab_nth M []) at 1. rewrite L. unfold tab. rewrite map_map. apply map_ext_in. intros a Ha. apply in_seq in Ha. unfold mat_at.
  apply dotR_rsum; [|exact Lv]. rewrite Forall_forall in F. apply F, nth_In. lia.
Qed.
Lemma act_rowof D x F : rep_ok D -> act D x (rowof x F) = rowof x (fun k u c => let ir := snd (nth k x (0, Irrep 0 Even)) in rsum (ir_dim ir) (fun j => mat_at (D ir) c j * F k u j)%R).
Proof.
  intros HD. revert F. induction x as [|[mul ir] x IH]; intros F; [reflexivity|]. rewrite act_cons. cbn [rowof fst snd]. destruct (tab2_wf mul (ir_dim ir) (F 0)) as [L W].
  assert (E : length (concat (tab2 mul (ir_dim ir) (F 0))) = mi_dim (mul, ir)) by (rewrite (concat_length_uniform _ _ W), L; reflexivity).
  rewrite firstn_length_app, skipn_length_app by exact E. rewrite IH. f_equal. cbn [nth snd]. clear IH E W L x.
  unfold act, flat. cbn [flat_map]. rewrite app_nil_r. generalize (F 0). clear F. intros F. revert F. induction mul as [|mul IH]; intros F; [reflexivity|].
  assert (S1 : forall G : nat -> nat -> R, tab2 (S mul) (ir_dim ir) G = tab (ir_dim ir) (G 0) :: tab2 mul (ir_dim ir) (fun u => G (S u))) by (intros G; unfold tab2, tab at 1; cbn [seq map]; f_equal; rewrite <- seq_shift, map_map; reflexivity).
  rewrite !S1. cbn [repeat acts concat]. rewrite firstn_length_app, skipn_length_app by apply tab_length. rewrite IH. f_equal. destruct (HD ir) as [L W].
  rewrite (matvec_tab _ _ (ir_dim ir) L W) by apply tab_length. apply tab_ext. intros a Ha. apply rsum_ext. intros b Hb. rewrite nth_tab by exact Hb. reflexivity.
Qed.
Lemma act_entry D x row k u c : rep_ok D -> length row = dim x -> inside x k u c ->
  entry x (act D x row) k u c = (let ir := snd (nth k x (0, Irrep 0 Even)) in rsum (ir_dim ir) (fun j => mat_at (D ir) c j * entry x row k u j)%R).
Proof. intros HD L Hin. rewrite <- (rowof_entry x row L) at 1. rewrite act_rowof by exact HD. rewrite entry_rowof by exact Hin. reflexivity. Qed.
