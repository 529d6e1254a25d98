(* The group action on IrrepsArrays: linear, blockwise, and it commutes with the structural operations. *)
From Coq Require Import Reals Lra.
From Verif Require Import PyBase PermModel PermProofs IrrepsModel IrrepsProofs IrrepsProofs2 ArrayModel ArrayProofs ArrayOps RechunkProofs SliceProofs SliceProofs2 ArithProofs LeadModel LeadProofs BlockProofs AxisProofs StackProofs BilinProofs.
Open Scope nat_scope.

(* each instance of the row multiplied by the matrix of its irrep *)
Fixpoint acts (D : rep) (l : list irrep) (row : list R) : list R :=
  match l with
  | [] => []
  | ir :: l => matvec (D ir) (firstn (ir_dim ir) row) ++ acts D l (skipn (ir_dim ir) row)
  end.
Definition act (D : rep) (x : irreps) (row : list R) : list R := acts D (flat x) row.
Definition dims (l : list irrep) : nat := sum (map ir_dim l).
Lemma dims_cons ir l : dims (ir :: l) = ir_dim ir + dims l.
Proof. reflexivity. Qed.
Lemma dims_flat x : dims (flat x) = dim x.
Proof. symmetry. apply dim_flat. Qed.

Lemma acts_length D l row : rep_ok D -> length (acts D l row) = dims l.
Proof. intros HD. revert row. induction l as [|ir l IH]; intros row; [reflexivity|]. cbn [acts]. rewrite app_length, matvec_length, IH, dims_cons. rewrite (proj1 (HD ir)). reflexivity. Qed.
Lemma acts_app D l l' row : acts D (l ++ l') row = acts D l (firstn (dims l) row) ++ acts D l' (skipn (dims l) row).
Proof.
  revert row. induction l as [|ir l IH]; intros row; [reflexivity|]. cbn [app acts]. rewrite IH, <- app_assoc, dims_cons, firstn_firstn, Nat.min_l by lia.
  rewrite skipn_skipn. f_equal. f_equal. f_equal. symmetry. rewrite <- firstn_skipn_comm'. reflexivity.
Qed.
Lemma act_length D x row : rep_ok D -> length (act D x row) = dim x.
Proof. intros HD. unfold act. rewrite acts_length by exact HD. apply dims_flat. Qed.
Lemma act_app D x y r r' : length r = dim x -> act D (x ++ y) (r ++ r') = act D x r ++ act D y r'.
Proof.
  intros L. unfold act. rewrite flat_app, acts_app, dims_flat. rewrite firstn_length_app, skipn_length_app by exact L. reflexivity.
Qed.
Lemma act_flat D x y row : flat x = flat y -> act D x row = act D y row.
Proof. unfold act. intros ->. reflexivity. Qed.
Lemma acts_zero D l : rep_ok D -> acts D l (zero_row (dims l)) = zero_row (dims l).
Proof.
  intros HD. induction l as [|ir l IH]; [reflexivity|]. rewrite dims_cons. unfold zero_row in *. cbn [acts]. rewrite firstn_repeat, skipn_repeat, IH.
  rewrite repeat_app. f_equal. fold (zero_row (ir_dim ir)). rewrite matvec_zero, (proj1 (HD ir)). reflexivity.
Qed.
Lemma act_zero D x : rep_ok D -> act D x (zero_row (dim x)) = zero_row (dim x).
Proof. intros HD. rewrite <- dims_flat. apply acts_zero, HD. Qed.

(* blocks and instances of an acted row *)
Lemma act_cons D m x row : act D (m :: x) row = act D [m] (firstn (mi_dim m) row) ++ act D x (skipn (mi_dim m) row).
Proof.
  unfold act. change (m :: x) with ([m] ++ x). rewrite flat_app, acts_app, dims_flat.
  replace (dim [m]) with (mi_dim m); [reflexivity|]. rewrite dim_cons. change (dim []) with 0. lia.
Qed.
Lemma act_one_length D m b : rep_ok D -> length (act D [m] b) = mi_dim m.
Proof. intros HD. rewrite act_length by exact HD. rewrite dim_cons. change (dim []) with 0. lia. Qed.
Definition act1 (D : rep) (m : mulirrep) (b : list R) : list R := act D [m] b.
Lemma blocks_act D x row : rep_ok D -> blocks x (act D x row) = map2 (act1 D) x (blocks x row).
Proof.
  intros HD. revert row. induction x as [|m x IH]; intros row; [reflexivity|]. rewrite act_cons. cbn [blocks]. rewrite map2_cons.
  rewrite firstn_length_app, skipn_length_app by (apply act_one_length, HD). rewrite IH. reflexivity.
Qed.
Lemma act_concat D x bs : Forall2 (fun m b => length b = mi_dim m) x bs -> act D x (concat bs) = concat (map2 (act1 D) x bs).
Proof.
  induction 1 as [|m b x bs L H IH]; [reflexivity|]. rewrite act_cons, map2_cons. cbn [concat]. rewrite firstn_length_app, skipn_length_app by exact L. rewrite IH. reflexivity.
Qed.
Definition mv (D : rep) (ir : irrep) (v : list R) : list R := matvec (D ir) v.
Lemma acts_concat D l rows : Forall2 (fun ir r => length r = ir_dim ir) l rows -> acts D l (concat rows) = concat (map2 (mv D) l rows).
Proof.
  induction 1 as [|ir r l rows L H IH]; [reflexivity|]. rewrite map2_cons. cbn [acts concat]. rewrite firstn_length_app, skipn_length_app by exact L. rewrite IH. reflexivity.
Qed.
(* instances as cuts of the row along the flattened list *)
Fixpoint cut (l : list irrep) (row : list R) : list (list R) :=
  match l with [] => [] | ir :: l => firstn (ir_dim ir) row :: cut l (skipn (ir_dim ir) row) end.
Lemma cut_app l l' row : cut (l ++ l') row = cut l (firstn (dims l) row) ++ cut l' (skipn (dims l) row).
Proof.
  revert row. induction l as [|ir l IH]; intros row; [reflexivity|]. cbn [app cut]. rewrite IH, dims_cons, firstn_firstn, Nat.min_l by lia.
  rewrite skipn_skipn. f_equal. f_equal. f_equal. symmetry. rewrite <- firstn_skipn_comm'. reflexivity.
Qed.
Lemma cut_repeat ir m row : cut (repeat ir m) row = group_rows m (ir_dim ir) row.
Proof. revert row. induction m as [|m IH]; intros row; [reflexivity|]. cbn [repeat cut]. rewrite group_rows_S, IH. reflexivity. Qed.
Lemma dims_repeat ir m : dims (repeat ir m) = m * ir_dim ir.
Proof. induction m as [|m IH]; [reflexivity|]. cbn [repeat]. rewrite dims_cons, IH. reflexivity. Qed.
Lemma instances_cut x row : instances x row = cut (flat x) row.
Proof.
  revert row. induction x as [|[m ir] x IH]; intros row; [reflexivity|]. rewrite flat_cons, cut_app, cut_repeat, dims_repeat, <- IH. reflexivity.
Qed.
Lemma cut_length l row : length (cut l row) = length l.
Proof. revert row. induction l; intros row; cbn; congruence. Qed.
Lemma cut_widths l row : length row = dims l -> Forall2 (fun ir r => length r = ir_dim ir) l (cut l row).
Proof.
  revert row. induction l as [|ir l IH]; intros row L; [constructor|]. rewrite dims_cons in L. cbn [cut]. constructor; [rewrite firstn_length; lia|]. apply IH. rewrite skipn_length. lia.
Qed.
Lemma concat_cut l row : length row = dims l -> concat (cut l row) = row.
Proof.
  revert row. induction l as [|ir l IH]; intros row L; [destruct row; [reflexivity|discriminate]|]. rewrite dims_cons in L. cbn [cut concat]. rewrite IH by (rewrite skipn_length; lia). apply firstn_skipn.
Qed.
Lemma cut_acts D l row : rep_ok D -> cut l (acts D l row) = map2 (mv D) l (cut l row).
Proof.
  intros HD. revert row. induction l as [|ir l IH]; intros row; [reflexivity|]. cbn [acts cut]. rewrite map2_cons.
  rewrite firstn_length_app, skipn_length_app by (rewrite matvec_length; apply HD). rewrite IH. reflexivity.
Qed.
Lemma acts_cut D l row : acts D l row = concat (map2 (mv D) l (cut l row)).
Proof. revert row. induction l as [|ir l IH]; intros row; [reflexivity|]. cbn [acts cut]. rewrite map2_cons. cbn [concat]. rewrite IH. reflexivity. Qed.

(* transform acts on each row *)
Lemma blockwise_act D i : forall x a, blockwise (fun m => V_act D m i) x a = act D x (a i).
Proof.
  induction x as [|m x IH]; intros a; [reflexivity|]. rewrite act_cons. cbn [blockwise]. rewrite (IH (fun j => skipn (mi_dim m) (a j))). f_equal.
  unfold V_act, act. destruct m as [m ir]. cbn [fst snd]. rewrite flat_cons. change (flat []) with (@nil irrep). rewrite app_nil_r. rewrite acts_cut, cut_repeat.
  f_equal. unfold map2, mv. assert (L : length (group_rows m (ir_dim ir) (firstn (mi_dim (m, ir)) (a i))) = m) by apply group_rows_length.
  revert L. generalize (group_rows m (ir_dim ir) (firstn (mi_dim (m, ir)) (a i))). intros rows <-. clear. induction rows as [|r rows IH]; [reflexivity|]. cbn [length repeat combine map]. rewrite <- IH. reflexivity.
Qed.
Lemma transform_act D x : coherent x -> rep_ok D -> yields (transform D x) (irr x) (lead x) (fun i => act D (irr x) (arr x i)).
Proof. intros H HD. eapply yields_ext; [|apply (transform_yields D x H HD)]. intros i Hi. cbv beta. apply blockwise_act. Qed.
Lemma transform_flags D x y : coherent x -> transform D x = Ok y -> zero_flags y = zero_flags x.
Proof.
  intros H E. unfold transform, from_chunks in E.
  destruct (negb (length (irr x) =? _)); [discriminate|]. destruct (negb (forallb _ _)); [discriminate|]. cbn [orb negb] in E.
  unfold mkIA in E. destruct (negb _); [discriminate|]. destruct (negb _); [discriminate|]. destruct (negb _); [discriminate|]. destruct (negb _); [discriminate|].
  injection E as <-. unfold zero_flags at 1. cbn [zf]. rewrite (chunks_flags x H), map_map. pose proof (chunks_length x H) as L.
  clear H. revert L. generalize (irr x) (chunks x). clear. intros l0. induction l0 as [|[m ir] l IH]; intros [|c cs] L; try discriminate; [reflexivity|].
  cbn [combine map]. rewrite IH by (injection L; auto). destruct c; reflexivity.
Qed.

(* the matrix of an Irreps *)
Lemma dotR_zero_app n u v w : dotR (repeat 0%R n ++ u) (v ++ w) = dotR u w \/ length v <> n.
Proof.
  destruct (Nat.eq_dec (length v) n) as [E|E]; [left|right; exact E]. rewrite dotR_app by (rewrite repeat_length; congruence). fold (zero_row n). rewrite dotR_zero_l. lra.
Qed.
Lemma block_diag_from_act D : rep_ok D -> forall l pre row, length row = dims l ->
  matvec (block_diag_from (length pre) (length pre + dims l) (map D l)) (pre ++ row) = acts D l row.
Proof.
  intros HD. induction l as [|ir l IH]; intros pre row L; [reflexivity|]. rewrite dims_cons in *. cbn [map block_diag_from acts].
  rewrite (proj1 (HD ir)). unfold matvec. rewrite map_app, map_map. f_equal.
  - apply map_ext_in. intros r Hr. assert (Lr : length r = ir_dim ir) by (pose proof (proj2 (HD ir)) as F; rewrite Forall_forall in F; apply F, Hr).
    rewrite dotR_app by (rewrite repeat_length; reflexivity). fold (zero_row (length pre)). rewrite dotR_zero_l.
    rewrite <- (firstn_skipn (ir_dim ir) row) at 1. rewrite dotR_app by (rewrite firstn_length; lia).
    fold (zero_row (length pre + (ir_dim ir + dims l) - length pre - ir_dim ir)). rewrite dotR_zero_l. lra.
  - replace (pre ++ row) with ((pre ++ firstn (ir_dim ir) row) ++ skipn (ir_dim ir) row) by (rewrite <- app_assoc, firstn_skipn; reflexivity).
    specialize (IH (pre ++ firstn (ir_dim ir) row) (skipn (ir_dim ir) row)). rewrite app_length, firstn_length, Nat.min_l in IH by lia.
    rewrite <- Nat.add_assoc in IH. apply IH. rewrite skipn_length. lia.
Qed.
Lemma D_irreps_act D x row : rep_ok D -> length row = dim x -> matvec (D_irreps D x) row = act D x row.
Proof.
  intros HD L. unfold D_irreps, block_diag.
  assert (E : flat_map (fun '(mul, ir) => map (fun _ => D ir) (seq 0 mul)) x = map D (flat x)).
  { unfold flat. induction x as [|[m ir] x IH]; [reflexivity|]. cbn [flat_map]. rewrite map_app. f_equal.
    - rewrite map_repeat. clear. generalize 0. induction m; intros k; cbn; [reflexivity|]. rewrite IHm. reflexivity.
    - clear L. clear IH. induction x as [|[n ir'] x IH]; [reflexivity|]. cbn [flat_map]. rewrite map_app, IH. f_equal. rewrite map_repeat. generalize 0. induction n; intros k; cbn; [reflexivity|]. rewrite IHn. reflexivity. }
  rewrite E, map_map. assert (S : sum (map (fun ir => length (D ir)) (flat x)) = dims (flat x)) by (unfold dims; f_equal; apply map_ext; intros ir; apply HD).
  rewrite S. apply (block_diag_from_act D HD (flat x) [] row). rewrite L. symmetry. apply dims_flat.
Qed.
