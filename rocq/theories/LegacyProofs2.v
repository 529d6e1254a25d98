(* The legacy tensor product: the value of left_right without fusion *)
From Coq Require Import Reals Lra Lia List.
From Verif Require Import PyBase PermModel PermProofs IrrepsModel IrrepsProofs IrrepsProofs2 ArrayModel ArrayProofs ArrayOps RechunkProofs ArithProofs BlockProofs LeadModel LeadProofs StackProofs BilinProofs ActProofs EquivProofs EquivProofs2 SumR TPModel LinearModel LinearProofs TPProofs TPProofs2 LinearProps TPProps3 TPProps4 SymProofs2 LegacyModel GSProofs LegacyProofs.
From Verif Require Import EntryProofs.
Import ListNotations.
Open Scope nat_scope.

(* an instruction that the constructor accepts: existing entries, an allowed coupling, multiplicities read off the irreps *)
Definition coupled_ins (x y z : irreps) (o : tinstr) : Prop :=
  exists m1 a m2 b mo c, nth_error x (ti_1 o) = Some (m1, a) /\ nth_error y (ti_2 o) = Some (m2, b) /\ nth_error z (ti_o o) = Some (mo, c) /\
    In c (ir_mul a b) /\ ti_m1 o = m1 /\ ti_m2 o = m2 /\ ti_mo o = mo.
(* the multiplicities suit the mode *)
Definition suits (o : tinstr) : Prop := mode_ok (ti_mode o) (ti_hw o) (ti_m1 o) (ti_m2 o) (ti_mo o).
Definition nonempty (o : tinstr) : Prop := 0 < ti_m1 o /\ 0 < ti_m2 o /\ 0 < ti_mo o.

(* one array of weights for each instruction that has weights, of its path_shape *)
Definition weights_fit (ins : list tinstr) (ws : list tensor) : Prop := Forall2 (fun o w => t_shape w = path_shape o /\ length (t_val w) = nprod (path_shape o)) (filter ti_hw ins) ws.
(* each instruction with its weights *)
Fixpoint assign (ins : list tinstr) (ws : list tensor) : list (tinstr * list R) :=
  match ins with
  | [] => []
  | o :: ins => if ti_hw o then (o, match ws with w :: _ => t_val w | [] => [] end) :: assign ins (tl ws) else (o, []) :: assign ins ws
  end.
Lemma assign_fst ins ws : map fst (assign ins ws) = ins.
Proof. revert ws. induction ins as [|o ins IH]; intros ws; [reflexivity|]. cbn [assign]. destruct (ti_hw o); cbn [map fst]; rewrite IH; reflexivity. Qed.
Lemma assign_in ins ws o w : In (o, w) (assign ins ws) -> In o ins.
Proof. intros H. rewrite <- (assign_fst ins ws). apply (in_map fst _ _ H). Qed.
Lemma assign_length ins ws : length (assign ins ws) = length ins.
Proof. rewrite <- (map_length fst), assign_fst. reflexivity. Qed.

(* what instruction o adds to component k of copy z of its output; X and Y are the entries of the inputs *)
Definition term (cg : coupling) (x y : irreps) (c : irrep) (X Y : nat -> nat -> nat -> R) (o : tinstr) (w : list R) (z k : nat) : R :=
  let a := snd (nth (ti_1 o) x d0) in let b := snd (nth (ti_2 o) y d0) in
  rsum (ti_m1 o) (fun u => rsum (ti_m2 o) (fun v => coefficient (ti_mode o) (ti_hw o) (ti_m1 o) (ti_m2 o) (ti_mo o) w u v z *
    (ti_pw o * rsum (ir_dim a) (fun i => rsum (ir_dim b) (fun j => cg (ir_l a) (ir_l b) (ir_l c) i j k * X (ti_1 o) u i * Y (ti_2 o) v j)))))%R.
(* the output entry (j, z, k) *)
Definition legacy_entry (cg : coupling) (x y out : irreps) (ps : list (tinstr * list R)) (X Y : nat -> nat -> nat -> R) (j z k : nat) : R :=
  lsum ps (fun '(o, w) => if ti_o o =? j then term cg x y (snd (nth j out d0)) X Y o w z k else 0%R).

Lemma contract_term cg pw a b c A B X Y u v k : (forall i, i < ir_dim a -> nth i (nth u A []) 0%R = X i) -> (forall j, j < ir_dim b -> nth j (nth v B []) 0%R = Y j) ->
  contract cg pw a b c A B u v k = (pw * rsum (ir_dim a) (fun i => rsum (ir_dim b) (fun j => cg (ir_l a) (ir_l b) (ir_l c) i j k * X i * Y j)))%R.
Proof.
  intros HA HB. unfold contract. rewrite <- rsum_scal. apply rsum_ext. intros i Hi. rewrite <- rsum_scal. apply rsum_ext. intros j Hj. rewrite HA, HB by assumption. ring.
Qed.
Lemma term_ext cg x y c X Y X' Y' o w z k m1 a m2 b : nth_error x (ti_1 o) = Some (m1, a) -> nth_error y (ti_2 o) = Some (m2, b) -> ti_m1 o = m1 -> ti_m2 o = m2 ->
  (forall u i, u < m1 -> i < ir_dim a -> X (ti_1 o) u i = X' (ti_1 o) u i) -> (forall v j, v < m2 -> j < ir_dim b -> Y (ti_2 o) v j = Y' (ti_2 o) v j) ->
  term cg x y c X Y o w z k = term cg x y c X' Y' o w z k.
Proof.
  intros E1 E2 M1 M2 HX HY. unfold term. rewrite (nth_error_nth _ _ _ E1), (nth_error_nth _ _ _ E2), M1, M2. cbn [snd]. apply rsum_ext. intros u Hu. apply rsum_ext. intros v Hv. f_equal. f_equal. apply rsum_ext. intros i Hi. apply rsum_ext. intros j Hj. rewrite HX, HY by assumption. reflexivity.
Qed.

Section Block.
Variables (cg : coupling) (T : ftp) (c1 c2 : list (option chunk)).
Let x := tp_in1 T.
Let y := tp_in2 T.
Let out := tp_out T.
Hypothesis W1 : Forall2 (wf_opt []) x c1.
Hypothesis W2 : Forall2 (wf_opt []) y c2.
Let X k := centry (nth k c1 None) [].
Let Y k := centry (nth k c2 None) [].

Lemma wf_at (x' : irreps) cs k m : Forall2 (wf_opt []) x' cs -> nth_error x' k = Some m -> wf_opt [] m (nth k cs None).
Proof. intros W. revert k. induction W as [|a c l cs H W IH]; intros [|k] E; try discriminate; [injection E as ->; exact H|]. apply IH, E. Qed.

(* what is appended for an instruction *)
Definition out_ok (p : tinstr * list R) (v : option (list R)) : Prop :=
  let '(o, w) := p in let '(mo, c) := nth (ti_o o) out d0 in
  match v with
  | None => forall z k, term cg x y c X Y o w z k = 0%R
  | Some l => length l = mo * ir_dim c /\ forall z k, z < mo -> k < ir_dim c -> nth (z * ir_dim c + k) l 0%R = term cg x y c X Y o w z k
  end.
Lemma block_outs_ok ins : forall ws, Forall (coupled_ins x y out) ins -> Forall suits ins -> Forall nonempty ins -> weights_fit ins ws ->
  exists outs, block_outs cg T c1 c2 ins ws = Ok outs /\ Forall2 out_ok (assign ins ws) outs.
Proof.
  induction ins as [|o ins IH]; intros ws HC HS HN HW; [exists []; split; [reflexivity|constructor]|].
  inversion HC as [|? ? Ho HC']; subst. inversion HS as [|? ? So HS']; subst. inversion HN as [|? ? (N1 & N2 & N3) HN']; subst. destruct Ho as (m1 & a & m2 & b & mo & c & E1 & E2 & E3 & Hc & M1 & M2 & M3).
  cbn [block_outs]. unfold entry_of. fold x y out. rewrite (nth_error_nth _ _ _ E1), (nth_error_nth _ _ _ E2), (nth_error_nth _ _ _ E3).
  set (w := if ti_hw o then match ws with w :: _ => t_val w | [] => [] end else []). set (ws' := if ti_hw o then tl ws else ws).
  assert (EW : (if ti_hw o then match ws with [] => Err IndexError | w :: _ => if shape_eqb (t_shape w) (path_shape o) then Ok (t_val w) else Err AssertionError end else Ok []) = Ok w /\ weights_fit ins ws' /\ assign (o :: ins) ws = (o, w) :: assign ins ws').
  { unfold weights_fit in HW. cbn [filter assign] in *. unfold w, ws'. destruct (ti_hw o); [|split; [reflexivity|split; [exact HW|reflexivity]]]. inversion HW as [|? w0 ? ws0 [Sh _] HW' Eq1 Eq2]; subst. rewrite Sh. assert (Q : shape_eqb (path_shape o) (path_shape o) = true) by (apply shape_eqb_eq; reflexivity). rewrite Q. split; [reflexivity|]. split; [exact HW'|reflexivity]. }
  destruct EW as (Ew & HW' & Ea). rewrite Ew, Ea. cbn [bind]. fold ws'.
  assert (Z : (mi_dim (m1, a) =? 0) || (mi_dim (m2, b) =? 0) || (mi_dim (mo, c) =? 0) = false).
  { unfold mi_dim, ir_dim. cbn [fst snd]. rewrite !orb_false_iff. repeat split; apply Nat.eqb_neq; lia. }
  rewrite Z. destruct (IH ws' HC' HS' HN' HW') as (outs & Eo & Fo). pose proof (wf_at x c1 _ _ W1 E1) as Q1. pose proof (wf_at y c2 _ _ W2 E2) as Q2.
  destruct (nth (ti_1 o) c1 None) as [A|] eqn:EA; [destruct (nth (ti_2 o) c2 None) as [B|] eqn:EB|].
  - unfold suits in So. rewrite M1, M2, M3 in So. destruct (block_value_ok (ti_mode o) (ti_hw o) m1 m2 mo (ir_dim c) w (contract cg (ti_pw o) a b c (mat A) (mat B)) So) as (l & El & Ll & Vl). rewrite El, Eo. cbn [bind rmap]. exists (Some l :: outs). split; [reflexivity|]. constructor; [|exact Fo].
    unfold out_ok. rewrite (nth_error_nth _ _ _ E3). split; [exact Ll|]. intros z k Hz Hk. rewrite Vl by assumption. unfold term. rewrite (nth_error_nth _ _ _ E1), (nth_error_nth _ _ _ E2), M1, M2, M3. cbn [snd]. apply rsum_ext. intros u Hu. apply rsum_ext. intros v Hv. f_equal. apply contract_term; intros q Hq; unfold X, Y; rewrite ?EA, ?EB; reflexivity.
  - rewrite Eo. cbn [rmap]. exists (None :: outs). split; [reflexivity|]. constructor; [|exact Fo]. unfold out_ok. rewrite (nth_error_nth _ _ _ E3). intros z k. unfold term. apply rsum_zero. intros u _. apply rsum_zero. intros v _. rewrite (rsum_zero (ir_dim _)); [ring|]. intros i _. apply rsum_zero. intros j _. unfold Y. rewrite EB. cbn [centry]. ring.
  - rewrite Eo. cbn [rmap]. exists (None :: outs). split; [reflexivity|]. constructor; [|exact Fo]. unfold out_ok. rewrite (nth_error_nth _ _ _ E3). intros z k. unfold term. apply rsum_zero. intros u _. apply rsum_zero. intros v _. rewrite (rsum_zero (ir_dim _)); [ring|]. intros i _. apply rsum_zero. intros j _. unfold X. rewrite EA. cbn [centry]. ring.
Qed.
Definition parts (ps : list (tinstr * list R)) (outs : list (option (list R))) (j : nat) : list path :=
  map as_path (keep_some (map snd (filter (fun '(o, _) => ti_o o =? j) (combine (map fst ps) outs)))).
Lemma parts_ok ps outs j mo c : nth_error out j = Some (mo, c) -> Forall2 out_ok ps outs ->
  (forall p, In p (parts ps outs j) -> p_size p = mi_dim (mo, c) /\ length (p_val p []) = mi_dim (mo, c)) /\
  forall z k, z < mo -> k < ir_dim c -> lsum (parts ps outs j) (fun p => nth (z * ir_dim c + k) (p_val p []) 0%R) = legacy_entry cg x y out ps X Y j z k.
Proof.
  intros Ej F. unfold parts, legacy_entry. rewrite (nth_error_nth _ _ _ Ej). cbn [snd]. induction F as [|[o w] v ps outs H F [IH1 IH2]]; [split; [intros p []|reflexivity]|]. cbn [map fst combine filter].
  destruct (Nat.eqb_spec (ti_o o) j) as [E|E].
  - subst j. unfold out_ok in H. rewrite (nth_error_nth _ _ _ Ej) in H. cbn [map snd]. destruct v as [l|]; cbn [keep_some flat_map app map].
    + destruct H as [Ll Vl]. split; [intros p [<-|Hp]; [cbn [as_path p_size p_val]; unfold mi_dim; cbn [fst snd]; auto|apply IH1, Hp]|]. intros z k Hz Hk. rewrite !lsum_cons, Nat.eqb_refl. cbn [as_path p_val]. rewrite Vl by assumption. f_equal. apply IH2; assumption.
    + split; [exact IH1|]. intros z k Hz Hk. rewrite lsum_cons, Nat.eqb_refl, H, Rplus_0_l. apply IH2; assumption.
  - split; [exact IH1|]. intros z k Hz Hk. rewrite lsum_cons. destruct (Nat.eqb_spec (ti_o o) j); [contradiction|]. rewrite Rplus_0_l. apply IH2; assumption.
Qed.
End Block.

Lemma block_yields cg T ws x1 x2 : coherent x1 -> coherent x2 -> irr x1 = tp_in1 T -> irr x2 = tp_in2 T -> lead x1 = [] -> lead x2 = [] ->
  Forall (coupled_ins (tp_in1 T) (tp_in2 T) (tp_out T)) (tp_ins T) -> Forall suits (tp_ins T) -> Forall nonempty (tp_ins T) -> weights_fit (tp_ins T) ws ->
  yields (block_left_right cg T ws x1 x2) (tp_out T) [] (fun _ => rowof (tp_out T) (legacy_entry cg (tp_in1 T) (tp_in2 T) (tp_out T) (assign (tp_ins T) ws) (entry (tp_in1 T) (arr x1 [])) (entry (tp_in2 T) (arr x2 [])))).
Proof.
  intros H1 H2 I1 I2 L1 L2 HC HS HN HW. pose proof (chunks_wf x1 H1) as W1. pose proof (chunks_wf x2 H2) as W2. rewrite I1, L1 in W1. rewrite I2, L2 in W2.
  unfold block_left_right. destruct (block_outs_ok cg T (chunks x1) (chunks x2) W1 W2 (tp_ins T) ws HC HS HN HW) as (outs & Eo & Fo). rewrite Eo. cbn [bind].
  set (X := fun k => centry (nth k (chunks x1) None) []) in *. set (Y := fun k => centry (nth k (chunks x2) None) []) in *.
  destruct (mapM_ok (fun '(j, m) => sum_paths [] m (map as_path (keep_some (map snd (filter (fun '(o, _) => ti_o o =? j) (combine (tp_ins T) outs))))))
    (fun jm c => wf_opt [] (snd jm) c /\ forall u k, u < fst (snd jm) -> k < ir_dim (snd (snd jm)) -> centry c [] u k = legacy_entry cg (tp_in1 T) (tp_in2 T) (tp_out T) (assign (tp_ins T) ws) X Y (fst jm) u k) (enumerate (tp_out T))) as (cs & Ec & Fc).
  { intros [j [mo c]] Hj. apply enumerate_in in Hj. destruct (parts_ok cg T (chunks x1) (chunks x2) (assign (tp_ins T) ws) outs j mo c Hj Fo) as [P1 P2]. unfold parts in P1, P2. rewrite assign_fst in P1, P2.
    destruct (sum_paths_ok [] (mo, c) _ (fun p Hp => proj1 (P1 p Hp))) as (ch & Ech & Wch & Vch).
    - intros p i Hp Hi. apply in_map_iff in Hp as (l & <- & Hl). assert (Hp : In (as_path l) (map as_path (keep_some (map snd (filter (fun '(o, _) => ti_o o =? j) (combine (tp_ins T) outs)))))) by (apply in_map, Hl). apply P1 in Hp as [_ Hp]. exact Hp.
    - exists ch. cbn [fst snd] in *. split; [exact Ech|]. split; [exact Wch|]. intros u k Hu Hk. rewrite Vch by (auto; constructor). apply P2; assumption. }
  rewrite Ec. cbn [bind]. destruct (Forall2_enumerate _ _ _ Fc) as [Lo Ho]. eapply yields_ext; [|apply from_chunks_rowof].
  - intros i Hi. inversion Hi; subst. cbv beta. apply rowof_ext. intros j z k (mo & c & Ej & Hz & Hk). destruct (Ho j (mo, c) Ej) as (ch & Ech & Wch & Vch). rewrite (nth_error_nth _ _ _ Ech). cbn [fst snd] in *. rewrite Vch by assumption.
    unfold legacy_entry. apply lsum_ext. intros [o w] How. destruct (Nat.eqb_spec (ti_o o) j) as [E|]; [|reflexivity]. apply assign_in in How. rewrite Forall_forall in HC. destruct (HC o How) as (m1 & a & m2 & b & mo' & c' & E1 & E2 & E3 & _ & M1 & M2 & _).
    apply (term_ext _ _ _ _ _ _ _ _ _ _ _ _ m1 a m2 b); auto; intros u q Hu Hq.
    + unfold X. rewrite <- I1. apply entry_chunks; [exact H1|rewrite L1; constructor|]. exists m1, a. rewrite I1. auto.
    + unfold Y. rewrite <- I2. apply entry_chunks; [exact H2|rewrite L2; constructor|]. exists m2, b. rewrite I2. auto.
  - clear -Lo Ho. assert (G : forall k m, nth_error (tp_out T) k = Some m -> wf_opt [] m (nth k cs None)) by (intros k m E; destruct (Ho k m E) as (c & Ec & Wc & _); rewrite (nth_error_nth _ _ _ Ec); exact Wc).
    clear Ho. revert cs Lo G. generalize (tp_out T). intros l. induction l as [|m l IH]; intros [|c cs] Lo G; try discriminate; constructor.
    + exact (G 0 m eq_refl).
    + apply IH; [cbn in Lo; lia|]. intros k m' E. exact (G (S k) m' E).
Qed.
