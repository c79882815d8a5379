(** Lemmas about the implicit stage. *)
From Verif Require Import M_Implicit S_Implicit S_Loop L_Loop L_RealBase L_Coord L_BaryField2.
From Flocq Require Import Core.Raux.
From Coq Require Import Lra Lia List ZArith Bool.
Import ListNotations.
Open Scope R_scope.

(** * Copies *)
Lemma vcopy_ok n src off dst : (n <= length src)%nat -> (off + n <= length dst)%nat -> exists d, vcopy n src off dst = FOk d /\ length d = length dst /\
  (forall k, (off <= k < off + n)%nat -> nth k d 0 = nth (k - off) src 0) /\ (forall k, ~ (off <= k < off + n)%nat -> nth k d 0 = nth k dst 0).
Proof.
  intros H1 H2. unfold vcopy. destruct (Nat.leb_spec n (length src)); [|lia]. destruct (Nat.leb_spec (off + n) (length dst)); [|lia]. cbn [andb]. eexists. split; [reflexivity|].
  assert (L1 : length (firstn off dst) = off) by (rewrite firstn_length; lia). assert (L2 : length (firstn n src) = n) by (rewrite firstn_length; lia).
  split; [rewrite !app_length, L1, L2, skipn_length; lia|]. split; intros k Hk.
  - rewrite app_nth2, L1, app_nth1 by lia. rewrite <- (firstn_skipn n src) at 2. rewrite app_nth1 by lia. reflexivity.
  - destruct (Nat.lt_ge_cases k off).
    + rewrite app_nth1 by lia. rewrite <- (firstn_skipn off dst) at 2. rewrite app_nth1 by lia. reflexivity.
    + rewrite app_nth2, L1, app_nth2, L2 by lia. rewrite <- (firstn_skipn (off + n) dst) at 2. rewrite app_nth2 by (rewrite firstn_length; lia). rewrite firstn_length. f_equal. lia.
Qed.
Lemma field_index np i p j : (p < np)%nat -> (j * np <= i * np + p < j * np + np)%nat -> i = j.
Proof. nia. Qed.
Lemma flatten_ok nf np in_pts mem : length mem = (nf * np)%nat -> (nf <= length in_pts)%nat -> (forall f, In f in_pts -> (np <= length f)%nat) ->
  exists flat, flatten nf np in_pts mem = FOk flat /\ length flat = (nf * np)%nat /\ forall i p, (i < nf)%nat -> (p < np)%nat -> nth (i * np + p) flat 0 = nth p (nth i in_pts []) 0.
Proof.
  intros Hm Hn Hf. unfold flatten.
  assert (G : forall m, (m <= nf)%nat -> exists a, fold_left (fun acc ifld => let! a := acc in match nth_error in_pts ifld with None => FUB | Some f => vcopy np f (ifld * np) a end) (seq 0 m) (FOk mem) = FOk a /\
     length a = (nf * np)%nat /\ forall i p, (i < m)%nat -> (p < np)%nat -> nth (i * np + p) a 0 = nth p (nth i in_pts []) 0).
  { induction m as [|m IH]; intros Hle; [exists mem; split; [reflexivity|]; split; [exact Hm|lia]|]. destruct (IH ltac:(lia)) as (a & Ea & La & Va). rewrite seq_S, fold_left_app, Ea. cbn [fold_left fbind Nat.add].
    destruct (nth_error in_pts m) as [f|] eqn:Em; [|apply nth_error_None in Em; lia].
    destruct (vcopy_ok np f (m * np) a) as (d & Ed & Ld & V1 & V2); [apply Hf; eapply nth_error_In; eauto|rewrite La; nia|]. exists d. split; [exact Ed|]. split; [lia|]. intros i p Hi Hp. destruct (Nat.eq_dec i m) as [->|Hne].
    - rewrite V1 by lia. rewrite (nth_error_nth _ _ _ Em). f_equal. lia.
    - rewrite V2; [apply Va; [lia|exact Hp]|]. intros Hk. apply Hne. eapply field_index; eauto. }
  destruct (G nf (Nat.le_refl _)) as (a & H). exists a. exact H.
Qed.
Lemma nth_set {A} (a : list A) m x i d : (m < length a)%nat -> nth i (firstn m a ++ x :: skipn (S m) a) d = if Nat.eqb i m then x else nth i a d.
Proof.
  intros H. assert (L : length (firstn m a) = m) by (rewrite firstn_length; lia). destruct (Nat.eqb_spec i m) as [->|Hne].
  - rewrite app_nth2 by lia. rewrite L, Nat.sub_diag. reflexivity.
  - destruct (Nat.lt_ge_cases i m).
    + rewrite app_nth1 by lia. rewrite <- (firstn_skipn m a) at 2. rewrite app_nth1 by lia. reflexivity.
    + rewrite app_nth2 by lia. rewrite L. replace (i - m)%nat with (S (i - S m)) by lia. cbn [nth]. rewrite <- (firstn_skipn (S m) a) at 2. rewrite app_nth2 by (rewrite firstn_length; lia). rewrite firstn_length. f_equal. lia.
Qed.
Lemma unflatten_ok nf np flat out_pts : length flat = (nf * np)%nat -> (nf <= length out_pts)%nat -> (forall f, In f out_pts -> (np <= length f)%nat) ->
  exists o, unflatten nf np flat out_pts = FOk o /\ length o = length out_pts /\
    (forall i, length (nth i o []) = length (nth i out_pts [])) /\
    (forall i p, (i < nf)%nat -> (p < np)%nat -> nth p (nth i o []) 0 = nth (i * np + p) flat 0) /\
    (forall i p, ~ ((i < nf)%nat /\ (p < np)%nat) -> nth p (nth i o []) 0 = nth p (nth i out_pts []) 0).
Proof.
  intros Hm Hn Hf. unfold unflatten. set (step := fun acc ifld => _).
  assert (G : forall m, (m <= nf)%nat -> exists o, fold_left step (seq 0 m) (FOk out_pts) = FOk o /\ length o = length out_pts /\ (forall i, length (nth i o []) = length (nth i out_pts [])) /\
    (forall i p, (i < m)%nat -> (p < np)%nat -> nth p (nth i o []) 0 = nth (i * np + p) flat 0) /\
    (forall i p, ~ ((i < m)%nat /\ (p < np)%nat) -> nth p (nth i o []) 0 = nth p (nth i out_pts []) 0)).
  { induction m as [|m IH]; intros Hle; [exists out_pts; repeat split; auto; lia|]. destruct (IH ltac:(lia)) as (o & Eo & Lo & Ls & V1 & V2). rewrite seq_S, fold_left_app, Eo. cbn [fold_left Nat.add]. unfold step. cbn [fbind].
    destruct (nth_error o m) as [f|] eqn:Em; [|apply nth_error_None in Em; lia]. pose proof (nth_error_nth _ _ [] Em) as En.
    assert (Hlf : (np <= length f)%nat). { rewrite <- En, Ls. apply Hf, nth_In. lia. }
    destruct (vcopy_ok np (skipn (m * np) flat) 0 f) as (d & Ed & Ld & W1 & W2); [rewrite skipn_length, Hm; nia|lia|]. rewrite Ed. cbn [fbind]. eexists. split; [reflexivity|].
    assert (Hmo : (m < length o)%nat) by lia.
    split; [rewrite app_length; cbn [length]; rewrite firstn_length, skipn_length; lia|]. split; [|split]; intros i.
    - rewrite nth_set by exact Hmo. destruct (Nat.eqb_spec i m) as [->|]; [rewrite Ld, <- En; apply Ls|apply Ls].
    - intros p Hi Hp. rewrite nth_set by exact Hmo. destruct (Nat.eqb_spec i m) as [->|]; [|apply V1; lia]. rewrite W1 by lia. rewrite Nat.sub_0_r. rewrite <- (firstn_skipn (m * np) flat) at 2. rewrite app_nth2 by (rewrite firstn_length; lia). f_equal. rewrite firstn_length. nia.
    - intros p Hno. rewrite nth_set by exact Hmo. destruct (Nat.eqb_spec i m) as [->|]; [|apply V2; intros [A B]; apply Hno; split; [lia|exact B]]. rewrite W2 by lia. rewrite <- En. apply V2. lia. }
  destruct (G nf (Nat.le_refl _)) as (o & H). exists o. exact H.
Qed.

(** * Sums of squares *)
Lemma dot_sumn n x : dot n x = sumn n (fun i => nth i x 0 * nth i x 0).
Proof.
  unfold dot. induction n as [|n IH]; [reflexivity|]. rewrite seq_S, fold_left_app, IH. reflexivity.
Qed.
Lemma sumn_blocks nf np f : sumn (nf * np) f = sumn nf (fun i => sumn np (fun p => f (i * np + p)%nat)).
Proof. induction nf as [|nf IH]; [reflexivity|]. cbn [sumn]. replace (S nf * np)%nat with (nf * np + np)%nat by lia. rewrite sumn_add, IH. reflexivity. Qed.
Lemma sq_sumn u : fold_right (fun x b => x * x + b) 0 u = sumn (length u) (fun i => nth i u 0 * nth i u 0).
Proof.
  induction u as [|x u IH]; [reflexivity|]. cbn [fold_right length]. rewrite IH. replace (S (length u)) with (1 + length u)%nat by lia. rewrite sumn_add. cbn [sumn nth Nat.add]. lra.
Qed.
Lemma nth_skipn_R k (x : list R) i : nth i (skipn k x) 0 = nth (k + i) x 0.
Proof. revert x. induction k as [|k IH]; intros x; [reflexivity|]. destruct x as [|a x]; [destruct i; reflexivity|]. cbn [skipn Nat.add nth]. apply IH. Qed.
Lemma fold_left_plus l : forall a, fold_left Rplus l a = a + fold_right Rplus 0 l.
Proof. induction l as [|x l IH]; intros a; cbn; [lra|]. rewrite IH. lra. Qed.
Lemma fold_right_seq f n : fold_right Rplus 0 (map f (seq 0 n)) = sumn n f.
Proof. induction n as [|n IH]; [reflexivity|]. rewrite seq_S, map_app, fold_right_app. cbn [map fold_right sumn Nat.add]. rewrite <- IH. clear IH. generalize (map f (seq 0 n)) as l. induction l as [|x l IH]; cbn; lra. Qed.
Lemma fold_left_vals i (vals : list (list R)) : forall a, fold_left (fun a v => a + nth i v 0) vals a = a + fold_right (fun v b => nth i v 0 + b) 0 vals.
Proof. induction vals as [|v vals IH]; intros a; cbn; [lra|]. rewrite IH. lra. Qed.
Lemma calc_ref_spec nf nps arrs : sized nf nps arrs -> calc_ref_vals nf nps arrs = sumsq arrs.
Proof.
  intros H. unfold calc_ref_vals, all_reduce. rewrite fold_left_plus, Rplus_0_l, fold_right_seq.
  rewrite (sumn_ext nf _ (fun i => fold_right (fun v b => nth i v 0 + b) 0 (map (fun p => fld_norms nf (fst p) (snd p)) (combine nps arrs)))) by (intros; rewrite fold_left_vals; lra).
  induction H as [|np u nps arrs Hu H IH]; cbn [combine map fold_right].
  - apply sumn_zero. reflexivity.
  - rewrite sumn_plus, IH. unfold sumsq at 2. cbn [fold_right]. f_equal. rewrite sq_sumn, Hu, sumn_blocks. apply sumn_ext. intros i Hi. unfold fld_norms. cbn [fst snd].
    rewrite (nth_indep _ 0 (dot np (skipn (0 * np) u))) by (rewrite map_length, seq_length; exact Hi). rewrite (map_nth (fun ifld => dot np (skipn (ifld * np) u))). rewrite seq_nth by exact Hi. cbn [Nat.add].
    rewrite dot_sumn. apply sumn_ext. intros p Hp. rewrite nth_skipn_R. reflexivity.
Qed.
Lemma sumsq_nonneg U : 0 <= sumsq U.
Proof.
  unfold sumsq. induction U as [|u U IH]; cbn [fold_right]; [lra|]. assert (0 <= fold_right (fun x b => x * x + b) 0 u) by (induction u as [|x u IHu]; cbn; [lra|nra]). lra.
Qed.
Lemma magn_spec v : forall a, fold_left (fun a x => a + dot (length x) x) v a = a + sumsq v.
Proof. unfold sumsq. induction v as [|x v IH]; intros a; cbn [fold_left fold_right]; [lra|]. rewrite IH, dot_sumn, <- sq_sumn. lra. Qed.

(** * The residual *)
Lemma fmapM_ok {A B} (f : A -> fres B) (P : A -> B -> Prop) l : (forall a, In a l -> exists b, f a = FOk b /\ P a b) -> exists bs, fmapM f l = FOk bs /\ Forall2 P l bs.
Proof.
  induction l as [|a l IH]; intros H; cbn [fmapM]; [exists []; split; [reflexivity|constructor]|]. destruct (H a (or_introl eq_refl)) as (b & -> & Hb). destruct (IH ltac:(intros; apply H; now right)) as (bs & -> & Hbs).
  cbn [fbind]. exists (b :: bs). split; [reflexivity|now constructor].
Qed.
Lemma Forall2_nth_error {A B} (P : A -> B -> Prop) l l' : Forall2 P l l' -> length l = length l' /\ forall i a, nth_error l i = Some a -> exists b, nth_error l' i = Some b /\ P a b.
Proof. induction 1 as [|x y l l' Hxy H [L IH]]; [split; [reflexivity|intros [|i]; discriminate]|]. split; [cbn; congruence|]. intros [|i] a Ha; cbn in *; [injection Ha as <-; eauto|auto]. Qed.
Lemma vec2_ok n op x y : (n <= length x)%nat -> (n <= length y)%nat -> exists z, vec2 n op x y = FOk z /\ length z = n /\ forall p, (p < n)%nat -> nth p z 0 = op (nth p x 0) (nth p y 0).
Proof.
  intros H1 H2. unfold vec2. destruct (Nat.leb_spec n (length x)); [|lia]. destruct (Nat.leb_spec n (length y)); [|lia]. cbn [andb]. eexists. split; [reflexivity|]. split; [rewrite map_length, seq_length; reflexivity|].
  intros p Hp. rewrite (nth_indep _ 0 ((fun p => op (nth p x 0) (nth p y 0)) 0%nat)) by (rewrite map_length, seq_length; exact Hp). rewrite (map_nth (fun p => op (nth p x 0) (nth p y 0))), seq_nth by exact Hp. reflexivity.
Qed.
Lemma resid_rank_ok lam nf np inn src o : length inn = (nf * np)%nat -> length src = (nf * np)%nat -> length o = nf -> (forall f, In f o -> (np <= length f)%nat) ->
  exists out, resid_rank lam nf np inn src o = FOk out /\ length out = (nf * np)%nat /\
    forall i p, (i < nf)%nat -> (p < np)%nat -> nth (i * np + p) out 0 = nth (i * np + p) inn 0 - lam * nth p (nth i o []) 0 - nth (i * np + p) src 0.
Proof.
  intros Hi Hs Ho Hf. unfold resid_rank.
  destruct (fmapM_ok (fun ifld => match nth_error o ifld with None => FUB | Some f => let! t := vec2 np (fun x y => - lam * x + y) f (skipn (ifld * np) inn) in vec2 np Rminus t (skipn (ifld * np) src) end)
    (fun i z => length z = np /\ forall p, (p < np)%nat -> nth p z 0 = nth (i * np + p) inn 0 - lam * nth p (nth i o []) 0 - nth (i * np + p) src 0) (seq 0 nf)) as (fs & E & F).
  - intros i Hin. apply in_seq in Hin. destruct (nth_error o i) as [f|] eqn:Ef; [|apply nth_error_None in Ef; lia]. pose proof (Hf f (nth_error_In _ _ Ef)) as Hlf.
    destruct (vec2_ok np (fun x y => - lam * x + y) f (skipn (i * np) inn) Hlf) as (t & Et & Lt & Vt); [rewrite skipn_length; nia|]. rewrite Et. cbn [fbind].
    destruct (vec2_ok np Rminus t (skipn (i * np) src)) as (z & Ez & Lz & Vz); [lia|rewrite skipn_length; nia|]. exists z. split; [exact Ez|]. split; [exact Lz|]. intros p Hp. rewrite Vz, Vt, !nth_skipn_R by exact Hp. rewrite (nth_error_nth _ _ [] Ef). lra.
  - rewrite E. cbn [fbind]. exists (concat fs). split; [reflexivity|]. destruct (Forall2_nth_error _ _ _ F) as [Lf Vf]. rewrite seq_length in Lf.
    assert (Hall : forall v, In v fs -> length v = np).
    { intros v Hv. clear - F Hv. revert v Hv. induction F as [|x y l l' [Hxy _] F IH]; intros v Hv; [destruct Hv|destruct Hv as [<-|Hv]; auto]. }
    split.
    + clear - Lf Hall. rewrite Lf. clear Lf. induction fs as [|v fs IH]; [reflexivity|]. cbn [concat length Nat.mul]. rewrite app_length, IH, Hall by (cbn; auto; intros; apply Hall; now right). lia.
    + intros i p Hi' Hp. destruct (Vf i i) as (z & Hz & Lz & Vz); [rewrite (nth_error_nth' _ 0%nat) by (rewrite seq_length; lia); rewrite seq_nth by lia; reflexivity|]. rewrite (nth_concat np) by (auto; lia). rewrite (nth_error_nth _ _ [] Hz). apply Vz. exact Hp.
Qed.
Lemma combine_nth_error {A B} (l : list A) : forall (l' : list B) i a b, nth_error l i = Some a -> nth_error l' i = Some b -> nth_error (combine l l') i = Some (a, b).
Proof. induction l as [|x l IH]; intros [|y l'] [|i] a b; cbn; try discriminate; [congruence|auto]. Qed.
Lemma sized_nth nf nps U r np : sized nf nps U -> nth_error nps r = Some np -> exists u, nth_error U r = Some u /\ length u = (nf * np)%nat.
Proof. intros H. apply (Forall2_nth_error _ _ _ H). Qed.
Lemma combine_in4 {A B C D} (P : A -> B -> C -> D -> Prop) (la : list A) (lb : list B) (lc : list C) (ld : list D) : forall a b c d,
  length la = length lb -> length la = length lc -> length la = length ld -> In (a, (b, (c, d))) (combine la (combine lb (combine lc ld))) ->
  exists i, nth_error la i = Some a /\ nth_error lb i = Some b /\ nth_error lc i = Some c /\ nth_error ld i = Some d.
Proof.
  revert lb lc ld. induction la as [|a0 la IH]; intros lb lc ld a b c d H1 H2 H3; destruct lb, lc, ld; cbn in *; try discriminate; [intros []|]. intros [[= -> -> -> ->]|Hin]; [exists 0%nat; auto|].
  destruct (IH lb lc ld a b c d ltac:(lia) ltac:(lia) ltac:(lia) Hin) as [i Hi]. exists (S i). exact Hi.
Qed.
Lemma residual_ok ode h nps src inn : sized (ih_nf h) nps src -> sized (ih_nf h) nps inn -> ode_sized ode (ih_nf h) nps ->
  exists out, residual ode h nps src inn = FOk out /\ sized (ih_nf h) nps out /\
    forall r np i p, nth_error nps r = Some np -> (i < ih_nf h)%nat -> (p < np)%nat ->
      at2 out r (i * np + p) = at2 inn r (i * np + p) - ih_lambda h * rhs_at ode (ih_time h) (ih_nf h) nps inn r i p - at2 src r (i * np + p).
Proof.
  intros Hs Hi Ho. specialize (Ho (ih_time h) inn Hi). unfold residual. cbv zeta. unfold rhs_at. set (o := ode _ _) in *. clearbody o.
  set (f := fun q : nat * (list R * (list R * list (list R))) => match q with (np, (i, (s, f))) => resid_rank (ih_lambda h) (ih_nf h) np i s f end).
  destruct (Forall2_nth_error _ _ _ Hs) as [Ls Ns]. destruct (Forall2_nth_error _ _ _ Hi) as [Li Ni]. destruct (Forall2_nth_error _ _ _ Ho) as [Lo No].
  destruct (fmapM_ok f (fun q out => length out = (ih_nf h * fst q)%nat /\ forall i p, (i < ih_nf h)%nat -> (p < fst q)%nat ->
     nth (i * fst q + p) out 0 = nth (i * fst q + p) (fst (snd q)) 0 - ih_lambda h * nth p (nth i (snd (snd (snd q))) []) 0 - nth (i * fst q + p) (fst (snd (snd q))) 0) (combine nps (combine inn (combine src o)))) as (out & E & F).
  - intros [np [i [s g]]] Hin. destruct (combine_in4 (fun _ _ _ _ => True) nps inn src o np i s g Li Ls Lo Hin) as (r & R1 & R2 & R3 & R4).
    destruct (Ni r np R1) as (i' & I1 & I2). destruct (Ns r np R1) as (s' & S1 & S2). destruct (No r np R1) as (g' & G1 & G2 & G3). assert (i' = i) by congruence. assert (s' = s) by congruence. assert (g' = g) by congruence. subst i' s' g'.
    unfold f. cbn [fst snd]. apply resid_rank_ok; assumption.
  - exists out. split; [exact E|]. destruct (Forall2_nth_error _ _ _ F) as [LF NF].
    assert (K : forall r np, nth_error nps r = Some np -> exists i s g, nth_error inn r = Some i /\ nth_error src r = Some s /\ nth_error o r = Some g /\ nth_error (combine nps (combine inn (combine src o))) r = Some (np, (i, (s, g)))).
    { intros r np R1. destruct (Ni r np R1) as (i' & I1 & _). destruct (Ns r np R1) as (s' & S1 & _). destruct (No r np R1) as (g' & G1 & _). exists i', s', g'. repeat split; auto. repeat apply combine_nth_error; auto. }
    assert (Lout : length nps = length out).
    { rewrite <- LF, !combine_length. rewrite <- Li, <- Ls, <- Lo. lia. }
    split.
    + clear - K NF Lout. unfold sized. revert out Lout NF. assert (Hgen : forall (l : list nat) (out : list (list R)), length l = length out -> (forall r np, nth_error l r = Some np -> exists u, nth_error out r = Some u /\ length u = (ih_nf h * np)%nat) -> Forall2 (fun np u => length u = (ih_nf h * np)%nat) l out).
      { induction l as [|a l IH]; intros [|b out] L H; cbn in L; try discriminate; [constructor|]. constructor; [destruct (H 0%nat a eq_refl) as (u & [= <-] & Hu); exact Hu|]. apply IH; [lia|]. intros r np Hr. apply (H (S r) np Hr). }
      intros out Lout NF. apply Hgen; [exact Lout|]. intros r np R1. destruct (K r np R1) as (i & s & g & _ & _ & _ & C). destruct (NF r _ C) as (u & U1 & U2 & _). exists u. split; [exact U1|exact U2].
    + intros r np i p R1 Hi1 Hp. destruct (K r np R1) as (u & s & g & K1 & K2 & K3 & C). destruct (NF r _ C) as (w & W1 & _ & W2). cbn [fst snd] in W2. unfold at2. rewrite (nth_error_nth _ _ [] W1), (nth_error_nth _ _ [] K1), (nth_error_nth _ _ [] K2), (nth_error_nth _ _ [] K3). apply W2; assumption.
Qed.

(** * The product with the Jacobian *)
Lemma sized_lengths nf nps U V : sized nf nps U -> sized nf nps V -> Forall2 (fun u v => length u = length v) U V.
Proof. intros H. revert V. induction H as [|np u nps U Hu H IH]; intros V HV; inversion HV; subst; constructor; [lia|auto]. Qed.
Lemma along_fmap v ref s : Forall2 (fun u w => length u = length w) v ref -> fmapM (fun p => vec2 (length (fst p)) (fun x y => s * x + y) (fst p) (snd p)) (combine v ref) = FOk (along_line ref v s).
Proof.
  unfold along_line. induction 1 as [|x y v ref L H IH]; [reflexivity|]. cbn [combine map fmapM fst snd]. unfold vec2 at 1. rewrite <- L, Nat.leb_refl. cbn [andb fbind]. rewrite IH. cbn [fbind]. do 2 f_equal.
  clear - L. revert y L. induction x as [|a x IH]; intros [|b y] L; cbn in L; try discriminate; [reflexivity|]. cbn [length seq map combine fst snd nth]. f_equal; [lra|]. rewrite <- seq_shift, map_map. apply IH. lia.
Qed.
Lemma along_sized nf nps ref v s : sized nf nps ref -> sized nf nps v -> sized nf nps (along_line ref v s).
Proof.
  intros H. revert v. unfold along_line. induction H as [|np u nps ref Hu H IH]; intros v Hv; inversion Hv; subst; cbn [combine map fst snd]; constructor; [rewrite map_length, combine_length; lia|apply IH; assumption].
Qed.
Lemma along_at nf nps ref v s r k np : sized nf nps ref -> sized nf nps v -> nth_error nps r = Some np -> (k < nf * np)%nat -> at2 (along_line ref v s) r k = at2 ref r k + s * at2 v r k.
Proof.
  intros H1 H2 Hr Hk. destruct (sized_nth _ _ _ _ _ H1 Hr) as (u & U1 & U2). destruct (sized_nth _ _ _ _ _ H2 Hr) as (w & W1 & W2). unfold at2, along_line.
  pose proof (combine_nth_error _ _ _ _ _ U1 W1) as C. rewrite (nth_error_nth (map _ (combine ref v)) r (x := map (fun q => fst q + s * snd q) (combine u w))) by (rewrite nth_error_map, C; reflexivity).
  rewrite (nth_error_nth _ _ [] U1), (nth_error_nth _ _ [] W1). assert (E : nth_error (combine u w) k = Some (nth k u 0, nth k w 0)) by (apply combine_nth_error; apply nth_error_nth'; lia).
  apply nth_error_nth. rewrite nth_error_map, E. reflexivity.
Qed.
Lemma mf_eps_ok h v : 0 <= ih_norm h -> 0 < sumsq v -> mf_eps h v = Some (ih_jfe h * sqrt ((sqrt (ih_norm h) + 1) / sumsq v)) /\ 0 < (sqrt (ih_norm h) + 1) / sumsq v.
Proof.
  intros Hn Hv. unfold mf_eps. rewrite magn_spec, Rplus_0_l. unfold dsqrt at 1. rewrite Rlt_bool_false by exact Hn. cbn [bind]. rewrite rdiv_ok by lra. cbn [bind].
  assert (Hq : 0 < (sqrt (ih_norm h) + 1) / sumsq v) by (apply Rdiv_lt_0_compat; [pose proof (sqrt_pos (ih_norm h)); lra|exact Hv]). unfold dsqrt. rewrite Rlt_bool_false by lra. split; [reflexivity|exact Hq].
Qed.
Lemma diff_fmap nf nps v r f : sized nf nps v -> sized nf nps r -> sized nf nps f -> exists d, fmapM (fun p => match p with (x, (r, f)) => vec2 (length x) Rminus r f end) (combine v (combine r f)) = FOk d /\ sized nf nps d /\
  forall j k np, nth_error nps j = Some np -> (k < nf * np)%nat -> at2 d j k = at2 r j k - at2 f j k.
Proof.
  intros H. revert r f. induction H as [|np x nps v Hx H IH]; intros r f Hr Hf; inversion Hr; inversion Hf; subst; cbn [combine fmapM].
  - exists []. split; [reflexivity|]. split; [constructor|]. intros [|j] k np; discriminate.
  - match goal with A : Forall2 _ nps ?l1, B : Forall2 _ nps ?l2 |- context [combine v (combine ?l1 ?l2)] => destruct (IH l1 l2 A B) as (d & Ed & Sd & Vd) end.
    match goal with |- context [vec2 (length x) Rminus ?a ?b] => destruct (vec2_ok (length x) Rminus a b) as (z & Ez & Lz & Vz); [lia|lia|] end. rewrite Ez. cbn [fbind]. rewrite Ed. cbn [fbind]. exists (z :: d). split; [reflexivity|]. split; [constructor; [lia|exact Sd]|].
    intros [|j] k np' Hj Hk; cbn in Hj; [injection Hj as <-; unfold at2; cbn [nth]; apply Vz; lia|]. unfold at2. cbn [nth]. apply (Vd j k np' Hj Hk).
Qed.
Lemma at2_map_smul nf nps c d r k np : sized nf nps d -> nth_error nps r = Some np -> (k < nf * np)%nat -> at2 (map (map (fun x => c * x)) d) r k = c * at2 d r k.
Proof.
  intros H Hr Hk. destruct (sized_nth _ _ _ _ _ H Hr) as (u & U1 & U2). unfold at2. rewrite (nth_error_nth (map (map (fun x => c * x)) d) r (x := map (fun x => c * x) u)) by (rewrite nth_error_map, U1; reflexivity).
  rewrite (nth_error_nth _ _ [] U1). rewrite (nth_indep _ 0 (c * 0)) by (rewrite map_length; lia). apply (map_nth (fun x => c * x)).
Qed.
Lemma mm_ok ode h nps src ref res v : sized (ih_nf h) nps src -> sized (ih_nf h) nps ref -> sized (ih_nf h) nps v -> ode_sized ode (ih_nf h) nps ->
  residual ode h nps src ref = FOk res -> 0 <= ih_norm h -> 0 < sumsq v -> ih_jfe h <> 0 ->
  let eps := ih_jfe h * sqrt ((sqrt (ih_norm h) + 1) / sumsq v) in
  eps <> 0 /\ exists out, matrix_multiply ode h nps src ref res v = FOk out /\ sized (ih_nf h) nps out /\
    forall r np i p, nth_error nps r = Some np -> (i < ih_nf h)%nat -> (p < np)%nat ->
      at2 out r (i * np + p) = at2 v r (i * np + p) - ih_lambda h * ((rhs_at ode (ih_time h) (ih_nf h) nps (along_line ref v eps) r i p - rhs_at ode (ih_time h) (ih_nf h) nps ref r i p) / eps).
Proof.
  intros Hs Hr Hv Ho Hres Hn Hm Hj eps. destruct (mf_eps_ok h v Hn Hm) as [Ee Hq]. fold eps in Ee.
  assert (He : eps <> 0) by (unfold eps; apply Rmult_integral_contrapositive; split; [exact Hj|]; apply Rgt_not_eq, sqrt_lt_R0, Hq). split; [exact He|].
  unfold matrix_multiply. rewrite Ee. cbn [fnan fbind]. rewrite (along_fmap v ref eps) by (eapply sized_lengths; eauto). cbn [fbind].
  pose proof (along_sized _ _ ref v eps Hr Hv) as Ha. destruct (residual_ok ode h nps src _ Hs Ha Ho) as (rp & Erp & Srp & Vrp). rewrite Erp. cbn [fbind].
  destruct (residual_ok ode h nps src ref Hs Hr Ho) as (res' & Er & Sr & Vr). rewrite Hres in Er. injection Er as <-.
  destruct (diff_fmap _ _ v rp res Hv Srp Sr) as (d & Ed & Sd & Vd). rewrite Ed. cbn [fbind]. rewrite rdiv_ok by exact He. cbn [fnan fbind]. eexists. split; [reflexivity|]. split.
  - clear - Sd. induction Sd as [|np u nps d Hu H IH]; cbn [map]; constructor; [rewrite map_length; exact Hu|exact IH].
  - intros r np i p R1 Hi Hp. assert (Hk : (i * np + p < ih_nf h * np)%nat) by nia. rewrite (at2_map_smul _ _ _ _ _ _ _ Sd R1 Hk), (Vd _ _ _ R1 Hk), (Vrp _ _ _ _ R1 Hi Hp), (Vr _ _ _ _ R1 Hi Hp), (along_at _ _ _ _ _ _ _ _ Hr Hv R1 Hk). field. exact He.
Qed.
