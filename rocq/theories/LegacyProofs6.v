(* The legacy tensor product: the value of the fused evaluation *)
From Coq Require Import Reals Lra Lia List.
From Verif Require Import PyBase PermModel PermProofs IrrepsModel IrrepsProofs IrrepsProofs2 ArrayModel ArrayProofs ArrayOps RechunkProofs ArithProofs BlockProofs LeadModel LeadProofs StackProofs BilinProofs ActProofs EquivProofs EquivProofs2 SumR TPModel LinearModel LinearProofs TPProofs TPProofs2 LinearProps TPProps3 TPProps4 SymProofs2 LegacyModel GSProofs LegacyProofs LegacyProofs2 LegacyProofs3 LegacyProofs4 LegacyProofs5.
From Verif Require Import EntryProofs.
Import ListNotations.
Open Scope nat_scope.

Section Fused.
Variables (cg : coupling) (T : ftp).
Let x := tp_in1 T.
Let y := tp_in2 T.
Let out := tp_out T.
Variables (xa xb : list R).
Hypothesis La : length xa = dim x.
Hypothesis Lb : length xb = dim y.

Lemma places_paths o i p u v w : In (p, (u, v, w)) (places o i) -> (ti_hw o = true /\ i <= p < i + length (spots o)) \/ (ti_hw o = false /\ p = 0).
Proof.
  unfold places. destruct (ti_hw o); intros H; [left; split; [reflexivity|]; apply in_combine_l, in_seq in H; exact H|right; split; [reflexivity|]]. apply in_map_iff in H as (t & E & _). congruence.
Qed.
Lemma one_contracts o i wf w N j z kk : coupled_ins x y out o -> suits o -> fusable o -> inside out j z kk ->
  (ti_hw o = true -> i + length (spots o) <= N /\ forall q, q < nprod (path_shape o) -> wf (i + q) = nth q w 0%R) -> (ti_hw o = false -> 0 < N /\ wf 0 = 1%R) ->
  let k := dim (firstn j out) + (z * ir_dim (snd (nth j out d0)) + kk) in
  rsum N (fun p => wf p * rsum (length xa) (fun e => rsum (length xb) (fun f => lsum (places o i) (fun t => added cg T o t p e f k) * nth e xa 0 * nth f xb 0)))%R =
  if ti_o o =? j then term cg x y (snd (nth j out d0)) (entry x xa) (entry y xb) o w z kk else 0%R.
Proof.
  intros HC HS HF Hin Hw H0. cbv zeta. set (k := dim (firstn j out) + (z * ir_dim (snd (nth j out d0)) + kk)).
  set (g := fun u v => (ti_pw o * rsum (ir_dim (snd (nth (ti_1 o) x d0))) (fun i => rsum (ir_dim (snd (nth (ti_2 o) y d0))) (fun i' => cg (ir_l (snd (nth (ti_1 o) x d0))) (ir_l (snd (nth (ti_2 o) y d0))) (ir_l (snd (nth j out d0))) i i' kk * entry x xa (ti_1 o) u i * entry y xb (ti_2 o) v i')))%R).
  transitivity (rsum N (fun p => lsum (places o i) (fun '(p0, (u, v, z')) => if (p =? p0) && (ti_o o =? j) && (z' =? z) then wf p * g u v else 0)%R)).
  - apply rsum_ext. intros p Hp. transitivity (wf p * lsum (places o i) (fun t => rsum (length xa) (fun e => rsum (length xb) (fun f => added cg T o t p e f k * nth e xa 0 * nth f xb 0))))%R.
    + f_equal. rewrite lsum_rsum. apply rsum_ext. intros e _. rewrite lsum_rsum. apply rsum_ext. intros f _. rewrite !lsum_scal_r. reflexivity.
    + rewrite <- lsum_scal. apply lsum_ext. intros [p0 [[u v] z']] Ht. destruct (places_bounds o i p0 u v z' HF HS Ht) as (Bu & Bv & Bw). pose proof (added_contracts cg T o p0 u v z' p j z kk xa xb HC Bu Bv Bw Hin La Lb) as AC. cbv zeta in AC. fold x y out in AC. fold k in AC. rewrite AC. fold (g u v). destruct ((p =? p0) && (ti_o o =? j) && (z' =? z)); [reflexivity|ring].
  - rewrite <- lsum_rsum. destruct (Nat.eqb_spec (ti_o o) j) as [E|N'].
    + destruct Hin as (mo & c & Ej & Hz & Hk). assert (Hzo : z < ti_mo o) by (destruct HC as (? & ? & ? & ? & mo' & c' & _ & _ & E3 & _ & _ & _ & M3); rewrite E in E3; rewrite M3; congruence).
      transitivity (lsum (places o i) (fun '(p, (u, v, z')) => if z' =? z then wf p * g u v else 0)%R); [|exact (places_sum o i wf w z g HF HS Hzo (fun h => proj2 (Hw h)) (fun h => proj2 (H0 h)))]. apply lsum_ext. intros [p0 [[u v] z']] Ht.
      assert (Hp0 : p0 < N). { destruct (places_paths _ _ _ _ _ _ Ht) as [[h B]|[h B]]; [specialize (Hw h); lia|subst p0; apply (H0 h)]. }
      destruct (z' =? z); [|apply rsum_zero; intros p _; rewrite andb_false_r; reflexivity].
      rewrite <- (rsum_delta N p0 (fun p => wf p * g u v)%R Hp0). apply rsum_ext. intros p _. rewrite !andb_true_r. reflexivity.
    + apply lsum_zero. intros [p0 [[u v] z']] _. apply rsum_zero. intros p _. rewrite andb_false_r. reflexivity.
Qed.
Lemma all_contract ins : Forall (coupled_ins x y out) ins -> Forall suits ins -> Forall fusable ins -> forall ws i wf N j z kk, inside out j z kk -> weights_fit ins ws ->
  i + weight_count ins <= N -> (forall q, q < weight_count ins -> wf (i + q) = nth q (flat_map t_val ws) 0%R) -> (Exists (fun o => ti_hw o = false) ins -> 0 < N /\ wf 0 = 1%R) ->
  let k := dim (firstn j out) + (z * ir_dim (snd (nth j out d0)) + kk) in
  rsum N (fun p => wf p * rsum (length xa) (fun e => rsum (length xb) (fun f => all_added cg T ins i p e f k * nth e xa 0 * nth f xb 0)))%R =
  legacy_entry cg x y out (assign ins ws) (entry x xa) (entry y xb) j z kk.
Proof.
  induction ins as [|o ins IH]; intros HC HS HF ws i wf N j z kk Hin HW HN Hq H0; cbv zeta.
  - cbn [all_added assign]. unfold legacy_entry, lsum. cbn [fold_right]. apply rsum_zero. intros p _. rewrite (rsum_zero (length xa)); [ring|]. intros e _. apply rsum_zero. intros f _. ring.
  - inversion HC as [|? ? Ho HC']; subst. inversion HS as [|? ? So HS']; subst. inversion HF as [|? ? Fo HF']; subst. rewrite weight_count_cons in HN, Hq. set (k := dim (firstn j out) + (z * ir_dim (snd (nth j out d0)) + kk)).
    set (w := if ti_hw o then match ws with w :: _ => t_val w | [] => [] end else []). set (ws' := if ti_hw o then tl ws else ws).
    assert (EW : weights_fit ins ws' /\ assign (o :: ins) ws = (o, w) :: assign ins ws' /\ (ti_hw o = true -> flat_map t_val ws = w ++ flat_map t_val ws' /\ length w = nprod (path_shape o)) /\ (ti_hw o = false -> ws' = ws)).
    { unfold weights_fit in HW. cbn [filter assign] in *. unfold w, ws'. destruct (ti_hw o); [|split; [exact HW|]; split; [reflexivity|]; split; [discriminate|reflexivity]]. inversion HW as [|? w0 ? ws0 [Sh Ll] HW' Eq1 Eq2]; subst. split; [exact HW'|]. split; [reflexivity|]. split; [intros _; split; [reflexivity|exact Ll]|discriminate]. }
    destruct EW as (HW' & Ea & Ew & Ews). rewrite Ea. unfold legacy_entry. rewrite lsum_cons. fold (legacy_entry cg x y out (assign ins ws') (entry x xa) (entry y xb) j z kk).
    transitivity (rsum N (fun p => wf p * rsum (length xa) (fun e => rsum (length xb) (fun f => lsum (places o i) (fun t => added cg T o t p e f k) * nth e xa 0 * nth f xb 0)))%R + rsum N (fun p => wf p * rsum (length xa) (fun e => rsum (length xb) (fun f => all_added cg T ins (next_path o i) p e f k * nth e xa 0 * nth f xb 0)))%R)%R.
    + rewrite <- rsum_plus. apply rsum_ext. intros p _. rewrite <- Rmult_plus_distr_l. f_equal. rewrite <- rsum_plus. apply rsum_ext. intros e _. rewrite <- rsum_plus. apply rsum_ext. intros f _. cbn [all_added]. ring.
    + f_equal.
      * unfold k. apply (one_contracts o i wf w N j z kk Ho So Fo Hin).
        -- intros h. rewrite (spots_length o Fo). rewrite h in HN, Hq. split; [lia|]. intros q Hq'. rewrite Hq by lia. destruct (Ew h) as [-> Lw]. apply app_nth1. lia.
        -- intros h. apply H0. constructor. exact h.
      * unfold k. apply (IH HC' HS' HF' ws' (next_path o i) wf N j z kk Hin HW').
        -- unfold next_path. rewrite (spots_length o Fo). destruct (ti_hw o); lia.
        -- intros q Hq'. unfold next_path. rewrite (spots_length o Fo). destruct (ti_hw o) eqn:h.
           ++ rewrite <- Nat.add_assoc, Hq by lia. destruct (Ew eq_refl) as [-> Lw]. rewrite app_nth2 by lia. f_equal. lia.
           ++ rewrite Hq by lia. rewrite (Ews eq_refl). reflexivity.
        -- intros Ex. apply H0. apply Exists_cons_tl. exact Ex.
Qed.
End Fused.
Lemma fused_left_right_yields cg T l x1 x2 : length (arr x1 []) = dim (tp_in1 T) -> length (arr x2 []) = dim (tp_in2 T) ->
  Forall (coupled_ins (tp_in1 T) (tp_in2 T) (tp_out T)) (tp_ins T) -> Forall suits (tp_ins T) -> Forall fusable (tp_ins T) -> weights_fit (tp_ins T) l ->
  yields (fused_left_right cg T (flat_map t_val l) x1 x2) (tp_out T) [] (fun _ => rowof (tp_out T) (legacy_entry cg (tp_in1 T) (tp_in2 T) (tp_out T) (assign (tp_ins T) l) (entry (tp_in1 T) (arr x1 [])) (entry (tp_in2 T) (arr x2 [])))).
Proof.
  intros L1 L2 HC HS HF HW. unfold fused_left_right. cbv zeta. set (free := existsb (fun o => negb (ti_hw o)) (tp_ins T)). set (b0 := if free then 1 else 0).
  destruct (fused_all cg T (tp_ins T) HC HS HF b0 (fun _ _ _ _ => 0%R)) as (W & EW & V). unfold big in *. rewrite EW. cbn [bind]. rewrite (paths_used _ _ HF), (fit_count _ _ HW). rewrite (Nat.add_comm b0). rewrite Nat.eqb_refl. cbn [assert bind].
  set (N := weight_count (tp_ins T) + b0). set (wf := fun p => nth p (if free then 1%R :: flat_map t_val l else flat_map t_val l) 0%R).
  set (tm := fun p k => rsum (length (arr x1 [])) (fun a => rsum (length (arr x2 [])) (fun b => W p a b k * nth a (arr x1 []) 0 * nth b (arr x2 []) 0))%R).
  match goal with |- yields (mkIA _ _ _ (fun _ => ?r) _ _) _ _ _ => assert (E : r = map (fun k => rsum N (fun p => wf p * tm p k))%R (seq 0 (dim (tp_out T)))) end.
  { destruct (free && (N =? 1)) eqn:C; [|reflexivity]. rewrite andb_true_iff, Nat.eqb_eq in C. destruct C as [Cf CN]. apply map_ext. intros k. apply rsum_ext. intros p Hp. unfold wf. rewrite Cf. replace p with 0 by lia. cbn [nth]. fold (tm 0 k). ring. }
  rewrite E. clear E. pose (F := fun _ : idx => map (fun k => rsum N (fun p => wf p * tm p k))%R (seq 0 (dim (tp_out T)))).
  refine (yields_ext _ _ _ F _ _ (new_yields (tp_out T) [] F _)); [|intros i _; unfold F; rewrite map_length, seq_length; reflexivity].
  intros i _. unfold F. change (map ?f (seq 0 (dim (tp_out T)))) with (tab (dim (tp_out T)) f). apply (rows_equal (tp_out T)); [apply tab_length|apply rowof_length|]. intros j z kk Hin. rewrite (entry_rowof _ _ _ _ _ Hin), (entry_nth _ _ _ _ _ Hin). rewrite nth_tab by (apply inside_bound, Hin).
  rewrite <- (all_contract cg T (arr x1 []) (arr x2 []) L1 L2 (tp_ins T) HC HS HF l b0 wf N j z kk Hin HW).
  - apply rsum_ext. intros p _. f_equal. unfold tm. apply rsum_ext. intros a _. apply rsum_ext. intros b _. rewrite V. change (0, Irrep 0 Even) with d0. ring.
  - unfold N. lia.
  - intros q _. unfold wf, b0. destruct free; reflexivity.
  - intros Ex. assert (Ef : free = true). { unfold free. apply existsb_exists. apply Exists_exists in Ex as (o & Ho & h). exists o. rewrite h. auto. } unfold N, b0, wf. rewrite Ef. split; [lia|reflexivity].
Qed.
Lemma fused_yields cg T w l x1 x2 : coherent x1 -> coherent x2 -> simplify (irr x1) = simplify (tp_in1 T) -> simplify (irr x2) = simplify (tp_in2 T) -> lead x1 = [] -> lead x2 = [] ->
  Forall (coupled_ins (tp_in1 T) (tp_in2 T) (tp_out T)) (tp_ins T) -> Forall suits (tp_ins T) -> Forall fusable (tp_ins T) -> stands_for (tp_ins T) w l ->
  yields (left_right cg true T w x1 x2) (tp_out T) [] (fun _ => rowof (tp_out T) (legacy_entry cg (tp_in1 T) (tp_in2 T) (tp_out T) (assign (tp_ins T) l) (entry (tp_in1 T) (arr x1 [])) (entry (tp_in2 T) (arr x2 [])))).
Proof.
  intros H1 H2 S1 S2 L1 L2 HC HS HF HW. apply (left_right_reduces cg true T w l x1 x2 H1 H2 S1 S2 L1 L2 HC HW). intros y1 y2 Hy1 Hy2 I1 I2 Ly1 Ly2 A1 A2. rewrite <- A1, <- A2. apply fused_left_right_yields; auto; [| |apply HW].
  - rewrite <- I1. apply Hy1. rewrite Ly1. constructor.
  - rewrite <- I2. apply Hy2. rewrite Ly2. constructor.
Qed.
