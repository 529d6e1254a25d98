(* FunctionalLinear: the value of a call, its matrix, equivariance, normalisation. *)
From Verif Require Import PyBase PermModel PermProofs IrrepsModel IrrepsProofs IrrepsProofs2 ArrayModel ArrayProofs ArrayOps RechunkProofs BlockProofs LeadModel LeadProofs StackProofs ActProofs EquivProofs EquivProofs2 SumR EntryProofs LinearModel ArrayProps ArrayProps2 ArrayProps3.
From Coq Require Import Reals Lra.
Open Scope nat_scope.

Lemma entry_nth x row k u c : inside x k u c -> entry x row k u c = nth (dim (firstn k x) + (u * ir_dim (snd (nth k x (0, Irrep 0 Even))) + c)) row 0%R.
Proof.
  intros (mul & ir & E & Hu & Hc). unfold entry. rewrite (nth_error_nth _ _ _ E). cbn [snd]. revert row k E. induction x as [|m x IH]; intros row [|k] E; try discriminate.
  - injection E as ->. cbn [blocks nth firstn]. change (dim []) with 0. rewrite nth_firstn_lt; [reflexivity|]. unfold mi_dim. cbn [fst snd]. nia.
  - cbn [blocks nth firstn]. rewrite IH by exact E. rewrite nth_skipn', dim_cons. f_equal. lia.
Qed.
Lemma inside_bound x k u c : inside x k u c -> dim (firstn k x) + (u * ir_dim (snd (nth k x (0, Irrep 0 Even))) + c) < dim x.
Proof.
  intros (mul & ir & E & Hu & Hc). rewrite (nth_error_nth _ _ _ E). cbn [snd]. revert k E. induction x as [|m x IH]; intros [|k] E; try discriminate.
  - injection E as ->. cbn [firstn]. change (dim []) with 0. rewrite dim_cons. unfold mi_dim. cbn [fst snd]. nia.
  - cbn [firstn]. rewrite !dim_cons. specialize (IH k E). lia.
Qed.

(* ---------- split_weights ---------- *)
Lemma split_from_ok ins : forall cursor w, cursor + sum (map (fun o => nprod (li_shape o)) ins) <= length w ->
  exists bs, split_from cursor ins w = Ok bs /\ Forall2 (fun o b => length b = nprod (li_shape o)) ins bs /\ concat bs = firstn (sum (map (fun o => nprod (li_shape o)) ins)) (skipn cursor w).
Proof.
  induction ins as [|o ins IH]; intros cursor w H; cbn [map] in *; [exists []; split; [reflexivity|split; [constructor|reflexivity]]|].
  change (sum (nprod (li_shape o) :: map (fun o => nprod (li_shape o)) ins)) with (nprod (li_shape o) + sum (map (fun o => nprod (li_shape o)) ins)) in *.
  cbn [split_from]. rewrite list_slice_firstn. assert (L : length (firstn (nprod (li_shape o)) (skipn cursor w)) = nprod (li_shape o)) by (rewrite firstn_length, skipn_length; lia).
  rewrite L, Nat.eqb_refl. cbn [negb]. destruct (IH (cursor + nprod (li_shape o)) w) as (bs & -> & F & E); [lia|]. cbn [rmap]. eexists. split; [reflexivity|]. split; [constructor; assumption|].
  cbn [concat]. rewrite E. replace (skipn (cursor + nprod (li_shape o)) w) with (skipn (nprod (li_shape o)) (skipn cursor w)) by (rewrite skipn_skipn; f_equal; lia). clear. generalize (skipn cursor w) as l, (nprod (li_shape o)) as a, (sum (map (fun o => nprod (li_shape o)) ins)) as b. intros l a b.
  revert l. induction a as [|a IH]; intros l; [reflexivity|]. destruct l as [|v l]; [cbn [firstn skipn]; rewrite !firstn_nil; reflexivity|]. cbn [firstn skipn app Nat.add]. rewrite IH. reflexivity.
Qed.
Lemma split_from_short ins : forall cursor w, length w < cursor + sum (map (fun o => nprod (li_shape o)) ins) -> cursor <= length w -> split_from cursor ins w = Err TypeError.
Proof.
  induction ins as [|o ins IH]; intros cursor w H Hc; cbn [map] in *; [cbn in H; lia|].
  change (sum (nprod (li_shape o) :: map (fun o => nprod (li_shape o)) ins)) with (nprod (li_shape o) + sum (map (fun o => nprod (li_shape o)) ins)) in *.
  cbn [split_from]. rewrite list_slice_firstn. destruct (Nat.eqb_spec (length (firstn (nprod (li_shape o)) (skipn cursor w))) (nprod (li_shape o))) as [E|N]; [|reflexivity].
  cbn [negb]. rewrite firstn_length, skipn_length in E. rewrite IH by lia. reflexivity.
Qed.

(* ---------- well-formed layers ---------- *)
(* every path goes from an entry to an entry of the same dimension, biases only to scalars *)
Definition ins_ok (same : irrep -> irrep -> Prop) (x y : irreps) (o : linstr) : Prop :=
  exists mo b, nth_error y (li_out o) = Some (mo, b) /\
    match li_in o with
    | Some k => exists mi a, nth_error x k = Some (mi, a) /\ same a b /\ li_shape o = [mi; mo]
    | None => b = Irrep 0 Even /\ li_shape o = [mo]
    end.
Definition weights_ok (ins : list linstr) (ws : list (list R)) : Prop := Forall2 (fun o w => length w = nprod (li_shape o)) ins ws.

(* entry (j, v, c) of the output when the input entries are X *)
Definition path_entry (o : linstr) (w : list R) (X : nat -> nat -> nat -> R) (v c : nat) : R :=
  match li_in o with
  | Some k => (li_pw o * rsum (nth 0 (li_shape o) 0%nat) (fun u => nth (u * nth 1 (li_shape o) 0%nat + v) w 0 * X k u c))%R
  | None => (li_pw o * nth v w 0)%R
  end.
Definition layer_entry (ins : list linstr) (ws : list (list R)) (X : nat -> nat -> nat -> R) (j v c : nat) : R :=
  lsum (combine ins ws) (fun '(o, w) => if li_out o =? j then path_entry o w X v c else 0%R).

Lemma path_rows_length pw w mi mo d X : length (path_rows pw w mi mo d X) = mo * d.
Proof.
  unfold path_rows. rewrite (concat_length_uniform d); [rewrite map_length, seq_length; reflexivity|]. apply Forall_map, Forall_forall. intros v _. rewrite map_length, seq_length. reflexivity.
Qed.
Lemma fold_map_seq n f : fold_right Rplus 0%R (map f (seq 0 n)) = rsum n f.
Proof. rewrite <- lsum_seq. unfold lsum. generalize (seq 0 n). intros l. induction l as [|a l IH]; [reflexivity|]. cbn [map fold_right]. rewrite IH. reflexivity. Qed.
Lemma path_rows_nth pw w mi mo d X v c : v < mo -> c < d -> nth (v * d + c) (path_rows pw w mi mo d X) 0%R = (pw * rsum mi (fun u => nth (u * mo + v) w 0 * nth c (nth u X []) 0))%R.
Proof.
  intros Hv Hc. unfold path_rows. rewrite nth_concat; [|apply Forall_map, Forall_forall; intros ? _; rewrite map_length, seq_length; reflexivity|exact Hc|rewrite map_length, seq_length; exact Hv].
  change (map ?f (seq 0 mo)) with (tab mo f). rewrite nth_tab by exact Hv. change (map ?f (seq 0 d)) with (tab d f). rewrite nth_tab by exact Hc. rewrite fold_map_seq. reflexivity.
Qed.
Lemma group_rows_nth mul d row u c : u < mul -> c < d -> nth c (nth u (group_rows mul d row) []) 0%R = nth (u * d + c) row 0%R.
Proof. intros Hu Hc. unfold group_rows. change (map ?f (seq 0 mul)) with (tab mul f). rewrite nth_tab by exact Hu. rewrite nth_firstn_lt, nth_skipn' by exact Hc. reflexivity. Qed.

Section Call.
  Variables (x y : irreps) (s : shape) (cs : list (option chunk)).
  Hypothesis W : Forall2 (wf_opt s) x cs.
  Definition same_dim (a b : irrep) : Prop := ir_dim a = ir_dim b.

  (* one evaluated path: size and entries *)
  Lemma eval_path_ok o w p mo b : ins_ok same_dim x y o -> nth_error y (li_out o) = Some (mo, b) ->
    (forall i, valid s i -> length (w i) = nprod (li_shape o)) -> eval_path cs o w = Some p ->
    p_size p = mi_dim (mo, b) /\ (forall i, valid s i -> length (p_val p i) = mi_dim (mo, b)) /\
    forall i v c, valid s i -> v < mo -> c < ir_dim b -> nth (v * ir_dim b + c) (p_val p i) 0%R = path_entry o (w i) (fun k => centry (nth k cs None) i) v c.
  Proof.
    intros (mo' & b' & E & H) E' Lw. rewrite E in E'. injection E' as -> ->. unfold eval_path, path_entry. destruct (li_in o) as [k|].
    - destruct H as (mi & a & Ek & Hd & Sh). rewrite Sh in *. cbn [nth]. assert (Q : wf_opt s (mi, a) (nth k cs None)).
      { clear -W Ek. revert k Ek. induction W as [|m c x cs Hm W' IH]; intros [|k] Ek; try discriminate; [injection Ek as ->; exact Hm|]. apply IH; assumption. }
      destruct (nth k cs None) as [c|] eqn:Ec; [|discriminate]. destruct Q as (_ & Mc & Dc & V). cbn [fst snd] in *. intros Ep. injection Ep as <-. cbn [p_size p_val]. rewrite Mc, Dc, Hd.
      split; [reflexivity|]. split; [intros i Hi; apply path_rows_length|]. intros i v c' Hi Hv Hc. rewrite path_rows_nth by assumption. reflexivity.
    - destruct H as [-> Sh]. rewrite Sh in *. intros Ep. injection Ep as <-. cbn [p_size p_val nprod fold_right] in *. rewrite Nat.mul_1_r in *. unfold mi_dim, ir_dim. cbn [fst snd ir_l].
      split; [lia|]. split; [intros i Hi; rewrite map_length, Lw by exact Hi; lia|]. intros i v c Hi Hv Hc. replace (v * (2 * 0 + 1) + c) with v by lia.
      rewrite (nth_map_in _ _ _ 0%R) by (rewrite Lw by exact Hi; lia). reflexivity.
  Qed.
End Call.

Lemma rowsum_length' w rows : Forall (fun r => length r = w) rows -> length (rowsum w rows) = w.
Proof. apply rowsum_length. Qed.

Lemma eval_path_none cs o w v c i : eval_path cs o w = None -> path_entry o (w i) (fun k => centry (nth k cs None) i) v c = 0%R.
Proof.
  unfold eval_path, path_entry. destruct (li_in o) as [k|]; [|discriminate]. destruct (nth k cs None) eqn:E; [discriminate|]. intros _.
  rewrite rsum_zero; [lra|]. intros u _. cbn [centry]. lra.
Qed.

Lemma combine_self_map {A B C} (l : list A) (l' : list B) (f : A * B -> C) : combine l (map f (combine l l')) = map (fun p => (fst p, f p)) (combine l l').
Proof. revert l'. induction l as [|a l IH]; intros [|b l']; try reflexivity. cbn [combine map fst]. rewrite IH. reflexivity. Qed.
Lemma kept_in {A} (l : list (option A)) a : In a (keep_some l) <-> In (Some a) l.
Proof.
  unfold keep_some. rewrite in_flat_map. split.
  - intros ([b|] & H & Hb); [|destruct Hb]. destruct Hb as [->|[]]. exact H.
  - intros H. exists (Some a). split; [exact H|left; reflexivity].
Qed.
Lemma lsum_keep {A} (l : list (option A)) f : lsum (keep_some l) f = lsum l (fun o => match o with Some a => f a | None => 0%R end).
Proof. unfold keep_some. rewrite lsum_flat_map. apply lsum_ext. intros [a|] _; cbn; lra. Qed.

Lemma sum_paths_ok s m ps : (forall p, In p ps -> p_size p = mi_dim m) -> (forall p i, In p ps -> valid s i -> length (p_val p i) = mi_dim m) ->
  exists c, sum_paths s m ps = Ok c /\ wf_opt s m c /\ forall i u k, valid s i -> u < fst m -> k < ir_dim (snd m) ->
    centry c i u k = lsum ps (fun p => nth (u * ir_dim (snd m) + k) (p_val p i) 0%R).
Proof.
  intros Hs Hl. unfold sum_paths. destruct ps as [|p0 ps0]; [exists None; split; [reflexivity|split; [exact I|reflexivity]]|]. set (ps := p0 :: ps0) in *.
  assert (E : forallb (fun p => p_size p =? mi_dim m) ps = true) by (apply forallb_forall; intros p Hp; apply Nat.eqb_eq, Hs, Hp). rewrite E. cbn [negb].
  eexists. split; [reflexivity|]. assert (F : forall i, valid s i -> Forall (fun r => length r = mi_dim m) (map (fun p => p_val p i) ps)) by (intros i Hi; apply Forall_map, Forall_forall; intros p Hp; apply Hl; assumption).
  split.
  - split; [reflexivity|]. split; [reflexivity|]. split; [reflexivity|]. intros i Hi. cbn [c_val]. split; [apply group_rows_length|]. apply group_rows_widths. rewrite rowsum_length by (apply F, Hi). reflexivity.
  - intros i u k Hi Hu Hk. cbn [centry c_val]. rewrite group_rows_nth by assumption. rewrite nth_rowsum; [|apply F, Hi|unfold mi_dim; nia]. rewrite map_map. unfold lsum.
    generalize ps. intros l. induction l as [|p l IH]; [reflexivity|]. cbn [map fold_right]. rewrite IH. reflexivity.
Qed.

Lemma mapM_ok {A B} (f : A -> res B) (Q : A -> B -> Prop) l : (forall a, In a l -> exists b, f a = Ok b /\ Q a b) -> exists bs, mapM f l = Ok bs /\ Forall2 Q l bs.
Proof.
  induction l as [|a l IH]; intros H; [exists []; split; [reflexivity|constructor]|]. destruct (H a (in_eq _ _)) as (b & E & Hb). destruct IH as (bs & E' & Hbs); [intros; apply H, in_cons; assumption|].
  exists (b :: bs). cbn [mapM]. rewrite E, E'. split; [reflexivity|constructor; assumption].
Qed.
Lemma Forall2_enumerate {A B} (Q : nat * A -> B -> Prop) (l : list A) bs : Forall2 Q (enumerate l) bs -> length bs = length l /\ forall k a, nth_error l k = Some a -> exists b, nth_error bs k = Some b /\ Q (k, a) b.
Proof.
  intros H. assert (E : length bs = length l) by (apply Forall2_length in H; rewrite <- H; unfold enumerate; rewrite combine_length, seq_length; lia). split; [exact E|]. intros k a Ea.
  assert (Hk : k < length l) by (apply nth_error_Some; congruence).
  assert (G : nth_error (enumerate l) k = Some (k, a)).
  { unfold enumerate. rewrite nth_error_combine, Ea. rewrite (nth_error_nth' _ 0) by (rewrite seq_length; exact Hk). rewrite seq_nth by exact Hk. reflexivity. }
  revert H G. generalize (k, a) as p, (enumerate l) as e. clear. intros p e H. revert k. induction H as [|q b e bs Hb H IH]; intros [|k] G; try discriminate; cbn [nth_error] in *.
  - injection G as ->. exists b. auto.
  - apply IH, G.
Qed.

Lemma aggregate_yields L x s cs (ws : list (idx -> list R)) : Forall2 (wf_opt s) x cs -> Forall (ins_ok same_dim x (fl_out L)) (fl_ins L) ->
  Forall2 (fun o w => forall i, valid s i -> length (w i) = nprod (li_shape o)) (fl_ins L) ws ->
  yields (aggregate_paths L (map (fun '(o, w) => eval_path cs o w) (combine (fl_ins L) ws)) s) (fl_out L) s
    (fun i => rowof (fl_out L) (layer_entry (fl_ins L) (map (fun w => w i) ws) (fun k => centry (nth k cs None) i))).
Proof.
  intros W Hins Hws. unfold aggregate_paths. rewrite combine_self_map.
  set (pairs := combine (fl_ins L) ws). set (ev := fun p : linstr * (idx -> list R) => eval_path cs (fst p) (snd p)).
  assert (Hev : forall p, (let '(o, w) := p in eval_path cs o w) = ev p) by (intros []; reflexivity).
  assert (Hin : forall o w, In (o, w) pairs -> ins_ok same_dim x (fl_out L) o /\ forall i, valid s i -> length (w i) = nprod (li_shape o)).
  { unfold pairs. clear -Hins Hws. induction Hws as [|o' w' ins ws Hw Hws IH]; [intros ? ? []|]. inversion Hins; subst. intros o w [E|H']; [injection E as <- <-; auto|]. apply IH; assumption. }
  set (P := fun j => keep_some (map snd (filter (fun '(o, _) => li_out o =? j) (map (fun p => (fst p, let '(o, w) := p in eval_path cs o w)) pairs)))).
  assert (HP : forall j p, In p (P j) -> exists o w, In (o, w) pairs /\ li_out o = j /\ eval_path cs o w = Some p).
  { intros j p Hp. apply kept_in in Hp. apply in_map_iff in Hp as ([o q] & Eq & Hq). cbn in Eq. subst q. apply filter_In in Hq as [Hq Ho]. apply Nat.eqb_eq in Ho. apply in_map_iff in Hq as ([o' w] & Eq & Hq).
    injection Eq as -> Eq. exists o, w. auto. }
  destruct (mapM_ok (fun '(j, m) => sum_paths s m (P j)) (fun jm c => wf_opt s (snd jm) c /\ forall i u k, valid s i -> u < fst (snd jm) -> k < ir_dim (snd (snd jm)) ->
      centry c i u k = lsum (P (fst jm)) (fun p => nth (u * ir_dim (snd (snd jm)) + k) (p_val p i) 0%R)) (enumerate (fl_out L))) as (out & Eo & Fo).
  { intros [j [mo b]] Hj. assert (Ej : nth_error (fl_out L) j = Some (mo, b)).
    { unfold enumerate in Hj. apply In_nth_error in Hj as [n En]. rewrite nth_error_combine in En. destruct (nth_error (seq 0 _) n) as [j'|] eqn:E1; [|discriminate]. destruct (nth_error (fl_out L) n) eqn:E2; [|discriminate]. injection En as -> ->.
      assert (n < length (fl_out L)) by (apply nth_error_Some; congruence). rewrite (nth_error_nth' _ 0) in E1 by (rewrite seq_length; assumption). rewrite seq_nth in E1 by assumption. injection E1 as <-. exact E2. }
    cbn [fst snd]. apply sum_paths_ok.
    - intros p Hp. destruct (HP j p Hp) as (o & w & Ho & E & Ev). destruct (Hin o w Ho) as [Hi Lw]. subst j. apply (eval_path_ok x (fl_out L) s cs W o w p mo b Hi Ej Lw Ev).
    - intros p i Hp Hv. destruct (HP j p Hp) as (o & w & Ho & E & Ev). destruct (Hin o w Ho) as [Hi Lw]. subst j. apply (eval_path_ok x (fl_out L) s cs W o w p mo b Hi Ej Lw Ev), Hv. }
  unfold P in Eo. rewrite Eo. cbn [bind]. destruct (Forall2_enumerate _ _ _ Fo) as [Lo Ho].
  eapply yields_ext; [|apply from_chunks_rowof].
  - intros i Hi. cbv beta. apply rowof_ext. intros j v c (mo & b & Ej & Hv & Hc). destruct (Ho j (mo, b) Ej) as (ch & Ech & Wch & Vch). rewrite (nth_error_nth _ _ _ Ech). cbn [fst snd] in *. rewrite Vch by assumption.
    unfold P. rewrite lsum_keep, lsum_map, lsum_filter, lsum_map. unfold layer_entry.
    assert (Q : combine (fl_ins L) (map (fun w => w i) ws) = map (fun p => (fst p, snd p i)) pairs) by (unfold pairs; clear; revert ws; generalize (fl_ins L); intros l; induction l as [|a l IH]; intros [|b ws]; try reflexivity; cbn [combine map fst snd]; rewrite IH; reflexivity).
    rewrite Q, lsum_map. apply lsum_ext. intros [o w] How. cbn [fst snd]. destruct (Nat.eqb_spec (li_out o) j) as [E|]; [|reflexivity]. destruct (Hin o w How) as [Hoi Lw]. subst j.
    destruct (eval_path cs o w) as [p|] eqn:Ev.
    + destruct (eval_path_ok x (fl_out L) s cs W o w p mo b Hoi Ej Lw Ev) as (_ & _ & V). rewrite V by assumption. reflexivity.
    + symmetry. apply eval_path_none, Ev.
  - clear -Lo Ho. assert (G : forall k m, nth_error (fl_out L) k = Some m -> wf_opt s m (nth k out None)) by (intros k m E; destruct (Ho k m E) as (c & Ec & Wc & _); rewrite (nth_error_nth _ _ _ Ec); exact Wc).
    clear Ho. revert out Lo G. generalize (fl_out L). intros l. induction l as [|m l IH]; intros [|c out] Lo G; try discriminate; constructor.
    + exact (G 0 m eq_refl).
    + apply IH; [cbn in Lo; lia|]. intros k m' E. exact (G (S k) m' E).
Qed.

Lemma linear_call_yields L ws x : coherent x -> simplify (irr x) = simplify (fl_in L) -> Forall (ins_ok same_dim (fl_in L) (fl_out L)) (fl_ins L) ->
  Forall2 (fun o w => forall i, valid (lead x) i -> length (w i) = nprod (li_shape o)) (fl_ins L) ws ->
  yields (linear_call L ws x) (fl_out L) (lead x) (fun i => rowof (fl_out L) (layer_entry (fl_ins L) (map (fun w => w i) ws) (entry (fl_in L) (arr x i)))).
Proof.
  intros H E Hins Hws. unfold linear_call. eapply yields_bind; [apply rechunk_yields; assumption|]. intros z _ Ei El Hz Ea. rewrite El.
  eapply yields_ext; [|apply (aggregate_yields L (fl_in L)); [rewrite <- Ei, <- El; apply chunks_wf, Hz|exact Hins|exact Hws]].
  intros i Hi. cbv beta. apply rowof_ext. intros j v c Hin. unfold layer_entry. apply lsum_ext. intros [o w] How. destruct (Nat.eqb_spec (li_out o) j) as [Eo|]; [|reflexivity].
  unfold path_entry. apply in_combine_l in How. rewrite Forall_forall in Hins. destruct (Hins o How) as (mo & b & Ej & Ho). destruct (li_in o) as [k|] eqn:Ek; [|reflexivity]. destruct Ho as (mi & a & Eik & Hd & Sh).
  rewrite Sh. cbn [nth]. f_equal. apply rsum_ext. intros u Hu. f_equal. rewrite <- Ei, <- Ea by exact Hi. rewrite <- El in Hi. apply entry_chunks; [exact Hz|exact Hi|].
  destruct Hin as (mo' & b' & Ej' & Hv & Hc). subst j. rewrite Ej in Ej'. injection Ej' as <- <-. exists mi, a. rewrite Ei. split; [exact Eik|]. split; [exact Hu|]. rewrite Hd. exact Hc.
Qed.

(* ---------- equivariance ---------- *)
Definition scalar_trivial (D : rep) : Prop := D (Irrep 0 Even) = [[1%R]].
Lemma layer_act D x y ins ws row : rep_ok D -> (Exists (fun o => li_in o = None) ins -> scalar_trivial D) -> Forall (ins_ok eq x y) ins -> length row = dim x ->
  act D y (rowof y (layer_entry ins ws (entry x row))) = rowof y (layer_entry ins ws (entry x (act D x row))).
Proof.
  intros HD HS Hins L. rewrite act_rowof by exact HD. apply rowof_ext. intros j v c (mo & b & Ej & Hv & Hc). rewrite (nth_error_nth _ _ _ Ej). cbn [snd]. cbv zeta.
  unfold layer_entry. erewrite rsum_ext by (intros q _; rewrite <- lsum_scal; reflexivity). rewrite <- lsum_rsum. apply lsum_ext. intros [o w] How. apply in_combine_l in How.
  destruct (Nat.eqb_spec (li_out o) j) as [Eo|]; [|apply rsum_zero; intros; lra]. rewrite Forall_forall in Hins. destruct (Hins o How) as (mo' & b' & Ej' & Ho). rewrite Eo, Ej in Ej'. injection Ej' as <- <-.
  unfold path_entry. destruct (li_in o) as [k|] eqn:Ek.
  - destruct Ho as (mi & a & Eik & -> & Sh). rewrite Sh. cbn [nth]. rewrite (rsum_ext (ir_dim b) _ (fun q => li_pw o * rsum mi (fun u => nth (u * mo + v) w 0 * (mat_at (D b) c q * entry x row k u q))))%R.
    2: { intros q _. rewrite <- !rsum_scal. apply rsum_ext. intros u _. lra. }
    rewrite rsum_scal. f_equal. rewrite rsum_swap. apply rsum_ext. intros u Hu. rewrite rsum_scal. f_equal. rewrite act_entry; [|exact HD|exact L|exists mi, b; auto]. rewrite (nth_error_nth _ _ _ Eik). reflexivity.
  - destruct Ho as [-> Sh]. assert (T : scalar_trivial D) by (apply HS, Exists_exists; exists o; auto). unfold scalar_trivial in T. rewrite T. unfold ir_dim in *. cbn [ir_l] in *. assert (c = 0) by lia. subst c. cbn. lra.
Qed.
Lemma ins_ok_dim x y o : ins_ok eq x y o -> ins_ok same_dim x y o.
Proof. intros (mo & b & E & H). exists mo, b. split; [exact E|]. destruct (li_in o); [|exact H]. destruct H as (mi & a & E' & -> & Sh). exists mi, b. unfold same_dim. auto. Qed.
Lemma ins_ok_dim_all x y l : Forall (ins_ok eq x y) l -> Forall (ins_ok same_dim x y) l.
Proof. intros H. eapply Forall_impl; [|exact H]. intros o. apply ins_ok_dim. Qed.

Lemma dim_of_simplify a b : simplify a = simplify b -> dim a = dim b.
Proof. intros E. rewrite <- !dims_flat, <- (flat_simplify a), <- (flat_simplify b), E. reflexivity. Qed.
Lemma linear_equivariant D L ws x : rep_ok D -> (Exists (fun o => li_in o = None) (fl_ins L) -> scalar_trivial D) -> Forall (ins_ok eq (fl_in L) (fl_out L)) (fl_ins L) ->
  coherent x -> simplify (irr x) = simplify (fl_in L) ->
  Forall2 (fun o w => forall i, valid (lead x) i -> length (w i) = nprod (li_shape o)) (fl_ins L) ws ->
  agree (let! y := linear_call L ws x in transform D y) (let! y := transform D x in linear_call L ws y).
Proof.
  intros HD HS Hins Hx E Hws. exists (fl_out L), (lead x), (fun i => rowof (fl_out L) (layer_entry (fl_ins L) (map (fun w => w i) ws) (entry (fl_in L) (act D (fl_in L) (arr x i))))). split.
  - eapply yields_bind; [apply linear_call_yields; auto using ins_ok_dim_all|]. intros z _ Ei El Hz Ea. eapply yields_ext; [|rewrite <- Ei, <- El; apply transform_act; assumption].
    intros i Hi. cbv beta. rewrite Ea, Ei by exact Hi. apply layer_act; auto. rewrite (proj1 Hx i Hi). apply dim_of_simplify, E.
  - eapply yields_bind; [apply transform_act; assumption|]. intros z _ Ei El Hz Ea. eapply yields_ext; [|rewrite <- El; apply linear_call_yields; auto using ins_ok_dim_all; rewrite ?Ei, ?El; assumption].
    intros i Hi. cbv beta. try rewrite El in Hi. rewrite Ea by exact Hi. f_equal. f_equal. f_equal. unfold act. rewrite <- (flat_simplify (irr x)), E, flat_simplify. reflexivity.
Qed.

(* ---------- matrix ---------- *)
Definition vecmat (cols : nat) (row : list R) (M : list (list R)) : list R := tab cols (fun b => rsum (length row) (fun a => nth a row 0 * mat_at M a b)%R).
Lemma rsum_window n r h f : r + h <= n -> rsum n (fun a => if (r <=? a) && (a <? r + h) then f a else 0%R) = rsum h (fun p => f (r + p)).
Proof.
  intros H. replace n with (r + (h + (n - r - h))) by lia. rewrite !rsum_add. rewrite (rsum_zero r), (rsum_zero (n - r - h)).
  - rewrite Rplus_0_l, Rplus_0_r. apply rsum_ext. intros p Hp. destruct (Nat.leb_spec r (r + p)), (Nat.ltb_spec (r + p) (r + h)); try lia. reflexivity.
  - intros k Hk. destruct (Nat.ltb_spec (r + (h + k)) (r + h)); [lia|]. rewrite andb_false_r. reflexivity.
  - intros k Hk. destruct (Nat.leb_spec r k); [lia|]. reflexivity.
Qed.
Lemma offset_next x k m : nth_error x k = Some m -> dim (firstn (S k) x) = dim (firstn k x) + mi_dim m.
Proof. revert k. induction x as [|n x IH]; intros [|k] E; try discriminate; [injection E as ->; cbn [firstn]; rewrite dim_cons; change (dim []) with 0; lia|]. cbn [nth_error] in E. change (firstn (S (S k)) (n :: x)) with (n :: firstn (S k) x). change (firstn (S k) (n :: x)) with (n :: firstn k x). rewrite !dim_cons, IH by exact E. lia. Qed.
Lemma offset_mono x k k' : k <= k' -> dim (firstn k x) <= dim (firstn k' x).
Proof. revert k k'. induction x as [|n x IH]; intros [|k] [|k'] H; cbn [firstn]; rewrite ?dim_cons; change (dim []) with 0; try lia. specialize (IH k k'). lia. Qed.
Lemma offset_total x k : dim (firstn k x) <= dim x.
Proof. revert k. induction x as [|n x IH]; intros [|k]; cbn [firstn]; rewrite ?dim_cons; change (dim []) with 0; try lia. specialize (IH k). lia. Qed.

(* the block of one instruction in the matrix *)
Definition block_at (x y : irreps) (o : linstr) (w : list R) (a b : nat) : R :=
  match li_in o with
  | None => 0%R
  | Some k =>
    let r := dim (firstn k x) in let c := dim (firstn (li_out o) y) in
    let mi := fst (nth k x (0, Irrep 0 Even)) in let mo := fst (nth (li_out o) y (0, Irrep 0 Even)) in let d := ir_dim (snd (nth k x (0, Irrep 0 Even))) in
    if (r <=? a) && (a <? r + mi * d) && (c <=? b) && (b <? c + mo * d)
    then (li_pw o * (nth ((a - r) / d * mo + (b - c) / d) w 0 * (if ((a - r) mod d =? (b - c) mod d)%nat then 1 else 0)))%R else 0%R
  end.
Lemma matrix_fold L ps : Forall (fun p => ins_ok same_dim (fl_in L) (fl_out L) (fst p) /\ li_in (fst p) <> None) ps -> forall M0,
  exists M, fold_left (fun M ow => let! M := M in matrix_step L M ow) ps (Ok M0) = Ok M /\
    (ps = [] -> M = M0) /\ (ps <> [] -> length M = dim (fl_in L)) /\
    forall a b, a < dim (fl_in L) -> b < dim (fl_out L) -> mat_at M a b = (mat_at M0 a b + lsum ps (fun '(o, w) => block_at (fl_in L) (fl_out L) o w a b))%R.
Proof.
  induction 1 as [|[o w] ps Ho F IH]; intros M0; [exists M0; split; [reflexivity|]; split; [reflexivity|]; split; [congruence|]; intros; unfold lsum; cbn; lra|].
  cbn [fold_left bind fst] in *. destruct Ho as [(mo & b & Ej & Ho) N]. destruct (li_in o) as [k|] eqn:Ek; [|congruence]. destruct Ho as (mi & a & Eik & Hd & Sh).
  assert (E : exists B, matrix_step L M0 (o, w) = Ok (matrix_add (dim (fl_in L)) (dim (fl_out L)) M0 (dim (firstn k (fl_in L))) (dim (firstn (li_out o) (fl_out L))) (mi * ir_dim a) (mo * ir_dim a) B) /\
    forall p q, B p q = (li_pw o * (nth (p / ir_dim a * mo + q / ir_dim a) w 0 * (if (p mod ir_dim a =? q mod ir_dim a)%nat then 1 else 0)))%R).
  { eexists. split; [|intros; reflexivity]. unfold matrix_step. rewrite Ek, (nth_error_nth _ _ _ Eik), (nth_error_nth _ _ _ Ej). unfold slices.
    assert (K1 : k < length (fl_in L)) by (apply nth_error_Some; congruence). assert (K2 : li_out o < length (fl_out L)) by (apply nth_error_Some; congruence).
    rewrite !slices_from_nth by assumption. cbv zeta. rewrite <- Hd, Nat.eqb_refl. cbn [negb]. reflexivity. }
  destruct E as (B & E & EB). rewrite E. destruct (IH (matrix_add (dim (fl_in L)) (dim (fl_out L)) M0 (dim (firstn k (fl_in L))) (dim (firstn (li_out o) (fl_out L))) (mi * ir_dim a) (mo * ir_dim a) B)) as (M & EM & E0 & EL & V).
  exists M. split; [exact EM|]. split; [discriminate|]. split.
  - intros _. destruct ps; [rewrite E0 by reflexivity; apply tab_length|apply EL; discriminate].
  - intros p q Hp Hq. rewrite V by assumption. rewrite lsum_cons. rewrite <- Rplus_assoc. f_equal. unfold mat_at at 1. unfold matrix_add. change (map ?f (seq 0 (dim (fl_in L)))) with (tab (dim (fl_in L)) f). rewrite nth_tab by exact Hp.
    change (map ?f (seq 0 (dim (fl_out L)))) with (tab (dim (fl_out L)) f). rewrite nth_tab by exact Hq. unfold mat_at. f_equal. unfold block_at. rewrite Ek, (nth_error_nth _ _ _ Eik), (nth_error_nth _ _ _ Ej). cbn [fst snd]. cbv zeta.
    destruct (_ && _ && _ && _); [|reflexivity]. apply EB.
Qed.
Lemma matrix_ok L ws : Forall (ins_ok same_dim (fl_in L) (fl_out L)) (fl_ins L) -> Forall (fun o => li_in o <> None) (fl_ins L) ->
  exists M, linear_matrix L ws = Ok M /\ length M = dim (fl_in L) /\
    forall a b, a < dim (fl_in L) -> b < dim (fl_out L) -> mat_at M a b = lsum (combine (fl_ins L) ws) (fun '(o, w) => block_at (fl_in L) (fl_out L) o w a b).
Proof.
  intros H1 H2. unfold linear_matrix. set (M0 := map _ _). destruct (matrix_fold L (combine (fl_ins L) ws)) with (M0 := M0) as (M & E & E0 & EL & V).
  - apply Forall_forall. intros [o w] Hp. apply in_combine_l in Hp. rewrite Forall_forall in H1, H2. cbn [fst]. auto.
  - exists M. split; [exact E|]. split.
    + destruct (combine (fl_ins L) ws); [rewrite E0 by reflexivity; unfold M0; rewrite map_length, seq_length; reflexivity|apply EL; discriminate].
    + intros a b Ha Hb. rewrite V by assumption. replace (mat_at M0 a b) with 0%R; [lra|]. unfold mat_at, M0. change (map ?f (seq 0 (dim (fl_in L)))) with (tab (dim (fl_in L)) f). rewrite nth_tab by exact Ha. symmetry. apply nth_repeat.
Qed.
Lemma block_sum x y o w row j v c : ins_ok same_dim x y o -> length row = dim x -> inside y j v c -> li_in o <> None ->
  let b := dim (firstn j y) + (v * ir_dim (snd (nth j y (0, Irrep 0 Even))) + c) in
  rsum (length row) (fun a => nth a row 0 * block_at x y o w a b)%R = if li_out o =? j then path_entry o w (entry x row) v c else 0%R.
Proof.
  intros (mo & ib & Ej & Ho) L (mo' & ib' & Ej' & Hv & Hc) N b. destruct (li_in o) as [k|] eqn:Ek; [|congruence]. destruct Ho as (mi & ia & Eik & Hd & Sh). unfold same_dim in Hd.
  subst b. rewrite (nth_error_nth _ _ _ Ej'). cbn [snd]. unfold block_at. rewrite Ek, (nth_error_nth _ _ _ Eik), (nth_error_nth _ _ _ Ej). cbn [fst snd]. cbv zeta.
  pose proof (offset_next _ _ _ Ej) as O1. pose proof (offset_next _ _ _ Ej') as O2. pose proof (offset_next _ _ _ Eik) as O3. unfold mi_dim in *. cbn [fst snd] in *.
  destruct (Nat.eqb_spec (li_out o) j) as [E|NE].
  - subst j. rewrite Ej in Ej'. injection Ej' as <- <-. set (cc := dim (firstn (li_out o) y)) in *. set (r := dim (firstn k x)) in *. set (d := ir_dim ia) in *. rewrite <- Hd in *.
    assert (D0 : d <> 0) by (unfold d, ir_dim; lia).
    assert (Win : r + mi * d <= length row). { rewrite L. pose proof (offset_total x (S k)). lia. }
    transitivity (rsum (length row) (fun a => if (r <=? a) && (a <? r + mi * d) then nth a row 0 * (li_pw o * (nth ((a - r) / d * mo + v) w 0 * (if ((a - r) mod d =? c)%nat then 1 else 0))) else 0)%R).
    + apply rsum_ext. intros a Ha. destruct ((r <=? a) && (a <? r + mi * d)); cbn [andb]; [|lra]. replace (cc + (v * d + c) - cc) with (c + v * d) by lia. rewrite (Nat.div_add c), (Nat.mod_add c), (Nat.div_small c), (Nat.mod_small c) by assumption.
      destruct (Nat.leb_spec cc (cc + (v * d + c))); [|lia]. destruct (Nat.ltb_spec (cc + (v * d + c)) (cc + mo * d)); [|nia]. reflexivity.
    + rewrite (rsum_window _ r (mi * d)) by exact Win. rewrite rsum_mul. unfold path_entry. rewrite Ek, Sh. cbn [nth]. rewrite <- rsum_scal. apply rsum_ext. intros u Hu.
      rewrite (rsum_ext d _ (fun q => if q =? c then (li_pw o * (nth (u * mo + v) w 0 * nth (r + (u * d + q)) row 0)) else 0))%R.
      2: { intros q Hq. replace (r + (u * d + q) - r) with (q + u * d) by lia. rewrite (Nat.div_add q), (Nat.mod_add q), (Nat.div_small q), (Nat.mod_small q) by assumption. cbn [Nat.add]. destruct (q =? c)%nat; lra. }
      rewrite rsum_delta by exact Hc. f_equal. f_equal. rewrite entry_nth; [|exists mi, ia; auto]. rewrite (nth_error_nth _ _ _ Eik). reflexivity.
  - apply rsum_zero. intros a Ha. assert (Q : (dim (firstn (li_out o) y) <=? dim (firstn j y) + (v * ir_dim ib' + c)) && (dim (firstn j y) + (v * ir_dim ib' + c) <? dim (firstn (li_out o) y) + mo * ir_dim ia) = false).
    { rewrite Hd. destruct (Nat.leb_spec (dim (firstn (li_out o) y)) (dim (firstn j y) + (v * ir_dim ib' + c))); [|reflexivity]. destruct (Nat.ltb_spec (dim (firstn j y) + (v * ir_dim ib' + c)) (dim (firstn (li_out o) y) + mo * ir_dim ib)); [|reflexivity]. exfalso.
      destruct (Nat.lt_ge_cases (li_out o) j) as [Lt|Ge].
      - pose proof (offset_mono y (S (li_out o)) j). lia.
      - pose proof (offset_mono y (S j) (li_out o)). assert (v * ir_dim ib' + c < mo' * ir_dim ib') by nia. lia. }
    match goal with |- context [if ?c then _ else _] => replace c with false end; [lra|]. symmetry. apply andb_false_iff in Q as [Q|Q]; rewrite Q; rewrite ?andb_false_r, ?andb_false_l; reflexivity.
Qed.
Lemma matrix_represents L ws row M : Forall (ins_ok same_dim (fl_in L) (fl_out L)) (fl_ins L) -> Forall (fun o => li_in o <> None) (fl_ins L) -> linear_matrix L ws = Ok M -> length row = dim (fl_in L) ->
  vecmat (dim (fl_out L)) row M = rowof (fl_out L) (layer_entry (fl_ins L) ws (entry (fl_in L) row)).
Proof.
  intros H1 H2 E Lr. destruct (matrix_ok L ws H1 H2) as (M' & E' & LM & V). rewrite E in E'. injection E' as <-.
  apply (rows_equal (fl_out L)); [apply tab_length|apply rowof_length|]. intros j v c Hin. rewrite entry_rowof by exact Hin. rewrite entry_nth by exact Hin. pose proof (inside_bound _ _ _ _ Hin) as Bd.
  unfold vecmat. rewrite nth_tab by exact Bd. rewrite (rsum_ext _ _ (fun a => lsum (combine (fl_ins L) ws) (fun '(o, w) => nth a row 0 * block_at (fl_in L) (fl_out L) o w a (dim (firstn j (fl_out L)) + (v * ir_dim (snd (nth j (fl_out L) (0%nat, Irrep 0 Even))) + c)))))%R.
  2: { intros a Ha. rewrite V by (try rewrite <- Lr; assumption). rewrite <- lsum_scal. apply lsum_ext. intros [o w] _. reflexivity. }
  transitivity (lsum (combine (fl_ins L) ws) (fun p => rsum (length row) (fun a => nth a row 0 * block_at (fl_in L) (fl_out L) (fst p) (snd p) a (dim (firstn j (fl_out L)) + (v * ir_dim (snd (nth j (fl_out L) (0%nat, Irrep 0 Even))) + c)))))%R.
  - rewrite lsum_rsum. apply rsum_ext. intros a _. apply lsum_ext. intros [o w] _. reflexivity.
  - apply lsum_ext. intros [o w] Hp. apply in_combine_l in Hp. cbn [fst snd]. rewrite Forall_forall in H1, H2. apply block_sum; auto.
Qed.
