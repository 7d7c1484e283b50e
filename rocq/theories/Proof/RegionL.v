From Verif Require Import Model.Base Model.Layout Model.Codec Model.Region Spec.Box Spec.Access Spec.Bytes
  Proof.BaseL Proof.LayoutL Proof.CodecL.
From Coq Require Import ZifyBool.
Ltac Zify.zify_post_hook ::= Z.div_mod_to_equations.

(* ---- enumerating boxes ---- *)
Fixpoint coords (rng : Z -> Z -> list Z) (mn mx : list Z) : list (list Z) :=
  match mn, mx with
  | lo :: mn', hi :: mx' => flat_map (fun x => map (cons x) (coords rng mn' mx')) (rng lo hi)
  | _, _ => [[]]
  end.

Fixpoint in_rng (rng : Z -> Z -> list Z) (lo hi x : list Z) : Prop :=
  match lo, hi, x with
  | [], [], [] => True
  | l :: lo', h :: hi', c :: x' => In c (rng l h) /\ in_rng rng lo' hi' x'
  | _, _, _ => False
  end.

Record rng_ok (rng : Z -> Z -> list Z) : Prop := {
  rng_in : forall lo hi x, In x (rng lo hi) -> lo <= x < hi;
  rng_nd : forall lo hi, NoDup (rng lo hi);
  rng_shift : forall lo hi k, rng (lo + k) (hi + k) = map (fun x => x + k) (rng lo hi)
}.
Lemma rng_ok1 : rng_ok zrange.
Proof. split; [intros; now apply in_zrange|apply NoDup_zrange|apply zrange_shift]. Qed.
Lemma rng_ok2 : rng_ok zrange2.
Proof. split; [intros lo hi x H; apply in_zrange2 in H; tauto|apply NoDup_zrange2|apply zrange2_shift]. Qed.

Lemma in_rng1 lo hi x : in_rng zrange lo hi x <-> in_box lo hi x.
Proof.
  revert hi x; induction lo as [|l lo IH]; intros [|h hi] [|c x]; simpl; try tauto.
  rewrite in_zrange, IH. tauto.
Qed.
Lemma in_rng2 lo hi x : in_rng zrange2 lo hi x <-> in_box2 lo hi x.
Proof.
  revert hi x; induction lo as [|l lo IH]; intros [|h hi] [|c x]; simpl; try tauto.
  rewrite in_zrange2, IH. tauto.
Qed.
Lemma in_rng_box rng lo hi x : rng_ok rng -> in_rng rng lo hi x -> in_box lo hi x.
Proof.
  intros R. revert hi x; induction lo as [|l lo IH]; intros [|h hi] [|c x]; simpl; try tauto.
  intros [H1 H2]. split; [eapply rng_in; eauto|auto].
Qed.

Lemma in_coords rng mn mx x : length mn = length mx -> (In x (coords rng mn mx) <-> in_rng rng mn mx x).
Proof.
  revert mx x; induction mn as [|lo mn IH]; intros [|hi mx] x L; simpl in *; try discriminate.
  - split; [intros [<-|[]]; exact I|]. destruct x; [auto|tauto].
  - rewrite in_flat_map. split.
    + intros (c & Hc & Hx). apply in_map_iff in Hx as (x' & <- & Hx'). rewrite IH in Hx' by lia. auto.
    + destruct x as [|c x]; [tauto|]. intros [Hc Hx]. exists c. split; [auto|].
      apply in_map. apply IH; auto.
Qed.

Lemma NoDup_flat_map_cons (l : list Z) (m : list (list Z)) :
  NoDup l -> NoDup m -> NoDup (flat_map (fun x => map (cons x) m) l).
Proof.
  intros Hl Hm. induction Hl as [|x l Hx Hl IH]; simpl; [constructor|].
  assert (forall a b : list (list Z), NoDup a -> NoDup b -> (forall z, In z a -> In z b -> False) -> NoDup (a ++ b)) as NA.
  { intros a b Ha Hb D. induction Ha as [|z a Hz Ha IHa]; simpl; [auto|].
    constructor; [rewrite in_app_iff; intros [?|?]; [auto|eapply D; simpl; eauto]|].
    apply IHa. intros; eapply D; simpl; eauto. }
  apply NA; auto.
  - apply FinFun.Injective_map_NoDup; [|auto]. intros u v E; congruence.
  - intros z Hz1 Hz2. apply in_map_iff in Hz1 as (u & <- & _). apply in_flat_map in Hz2 as (y & Hy & Hz2).
    apply in_map_iff in Hz2 as (w & E & _). congruence.
Qed.
Lemma NoDup_coords rng mn mx : rng_ok rng -> NoDup (coords rng mn mx).
Proof.
  intros R. revert mx; induction mn as [|lo mn IH]; intros [|hi mx]; simpl;
    try (constructor; [simpl; tauto|constructor]).
  apply NoDup_flat_map_cons; auto. now apply rng_nd.
Qed.

Lemma map_flat_map {A B C} (f : B -> C) (g : A -> list B) l : map f (flat_map g l) = flat_map (fun x => map f (g x)) l.
Proof. induction l; simpl; [auto|]. rewrite map_app. now f_equal. Qed.
Lemma flat_map_map {A B C} (f : A -> B) (g : B -> list C) l : flat_map g (map f l) = flat_map (fun x => g (f x)) l.
Proof. induction l; simpl; [auto|]. now f_equal. Qed.
Lemma flat_map_ext_in {A B} (f g : A -> list B) l : (forall x, In x l -> f x = g x) -> flat_map f l = flat_map g l.
Proof. induction l; simpl; intros H; [auto|]. rewrite H, IHl by auto. reflexivity. Qed.

(* equally shaped regions *)
Definition same_shape (mnA mxA mnB mxB : list Z) : Prop :=
  length mnA = length mxA /\ length mnB = length mxB /\
  Forall2 (fun a b => fst a - snd a = fst b - snd b) (combine mxA mnA) (combine mxB mnB).

Lemma coords_shape rng mnA mxA mnB mxB : rng_ok rng ->
  length mxA = length mnA -> length mnB = length mnA -> length mxB = length mnA ->
  Forall2 (fun a b => fst a - snd a = fst b - snd b) (combine mxA mnA) (combine mxB mnB) ->
  coords rng mnA mxA = map (translate mnB mnA) (coords rng mnB mxB).
Proof.
  intros R. revert mxA mnB mxB. induction mnA as [|la mnA IH]; intros [|ha mxA] [|lb mnB] [|hb mxB] L1 L2 L3 F;
    simpl in *; try discriminate; [reflexivity|].
  inversion F as [|? ? ? ? E F']; subst; simpl in E.
  rewrite (IH mxA mnB mxB) by (auto; lia).
  replace (rng la ha) with (map (fun x => x + (la - lb)) (rng lb hb)).
  - rewrite flat_map_map, map_flat_map. apply flat_map_ext_in. intros x _. rewrite !map_map.
    apply map_ext. intros y. simpl. f_equal. lia.
  - rewrite <- rng_shift by auto. f_equal; lia.
Qed.

(* ---- flattening the nested loops ---- *)
Fixpoint addrs (rng : Z -> Z -> list Z) (axs : list axis) (mn mx : list Z) (p : Z) : list Z :=
  match axs, mn, mx with
  | [a], lo :: _, hi :: _ => map (fun x => p + (x - a_s0 a) * a_sx a) (rng lo hi)
  | a :: axs', lo :: mn', hi :: mx' =>
      flat_map (fun x => addrs rng axs' mn' mx' (p + (x - a_s0 a) * a_sx a)) (rng lo hi)
  | _, _, _ => []
  end.

Lemma addrs_coords rng axs mn mx p : axs <> [] -> length mn = length axs -> length mx = length axs ->
  addrs rng axs mn mx p = map (fun y => p + encode axs y) (coords rng mn mx).
Proof.
  revert mn mx p; induction axs as [|a axs IH]; intros [|lo mn] [|hi mx] p Hne L1 L2; simpl in L1, L2; try discriminate;
    [contradiction|].
  destruct axs as [|b axs].
  - destruct mn, mx; simpl in L1, L2; try lia. simpl. induction (rng lo hi) as [|x l IHl]; simpl; [auto|].
    rewrite IHl. f_equal. lia.
  - simpl addrs. cbn [coords]. rewrite map_flat_map. apply flat_map_ext_in. intros x _.
    specialize (IH mn mx (p + (x - a_s0 a) * a_sx a) ltac:(discriminate) ltac:(simpl in *; lia) ltac:(simpl in *; lia)).
    simpl addrs in IH. rewrite IH, map_map. apply map_ext. intros y. cbn [encode]. lia.
Qed.

Section Flat.
Context {T : Type} (c : codec T) (rng : Z -> Z -> list Z).

Lemma addrs_cons a b axs lo mn hi mx p : addrs rng (a :: b :: axs) (lo :: mn) (hi :: mx) p =
  flat_map (fun x => addrs rng (b :: axs) mn mx (p + (x - a_s0 a) * a_sx a)) (rng lo hi).
Proof. reflexivity. Qed.
Lemma buffer_size_cons (data : list T) a b axs lo mn hi mx p :
  buffer_size c rng data (a :: b :: axs) (lo :: mn) (hi :: mx) p =
  fold_opt (fun size x => do s <- buffer_size c rng data (b :: axs) mn mx (p + (x - a_s0 a) * a_sx a); Some (size + s))
               (rng lo hi) 0.
Proof. reflexivity. Qed.
Lemma to_buffer_cons (data : list T) a b axs lo mn hi mx p buf off :
  to_buffer c rng data (a :: b :: axs) (lo :: mn) (hi :: mx) p buf off =
  fold_opt (fun '(buf, size) x =>
                  do bs <- to_buffer c rng data (b :: axs) mn mx (p + (x - a_s0 a) * a_sx a) buf (off + size);
                  Some (fst bs, size + snd bs))
               (rng lo hi) (buf, 0).
Proof. reflexivity. Qed.
Lemma from_buffer_cons (data : list T) a b axs lo mn hi mx p buf off :
  from_buffer c rng data (a :: b :: axs) (lo :: mn) (hi :: mx) p buf off =
  fold_opt (fun '(data, size) x =>
                  do vs <- from_buffer c rng data (b :: axs) mn mx (p + (x - a_s0 a) * a_sx a) buf (off + size);
                  Some (fst vs, size + snd vs))
               (rng lo hi) (data, 0).
Proof. reflexivity. Qed.

Lemma map_opt_app {A B} (f : A -> option B) l m :
  map_opt f (l ++ m) = do a <- map_opt f l; do b <- map_opt f m; Some (a ++ b).
Proof.
  induction l as [|x l IH]; simpl.
  - destruct (map_opt f m); reflexivity.
  - destruct (f x); simpl; [|reflexivity]. rewrite IH. destruct (map_opt f l); simpl; [|reflexivity].
    destruct (map_opt f m); reflexivity.
Qed.

Lemma buffer_size_flat data axs mn mx p vs :
  map_opt (get data) (addrs rng axs mn mx p) = Some vs ->
  buffer_size c rng data axs mn mx p = Some (total c vs).
Proof.
  revert mn mx p vs; induction axs as [|a axs IH]; intros mn mx p vs.
  - simpl. intros H; inversion H; reflexivity.
  - destruct mn as [|lo mn]; [destruct axs; simpl; intros H; inversion H; reflexivity|].
    destruct mx as [|hi mx]; [destruct axs; simpl; intros H; inversion H; reflexivity|].
    destruct axs as [|b axs].
    + simpl. intros H. change (total c vs) with (0 + total c vs). generalize 0 as s.
      revert vs H; induction (rng lo hi) as [|x l IHl]; simpl; intros vs H s.
      * inversion H; subst. f_equal. unfold total; simpl. change (sumZ []) with 0. lia.
      * destruct (get data _) as [v|]; simpl in *; [|discriminate].
        destruct (map_opt _ _) as [w|]; simpl in *; [|discriminate]. inversion H; subst.
        rewrite (IHl w) by reflexivity. f_equal. rewrite total_cons. lia.
    + rewrite addrs_cons, buffer_size_cons. intros H. change (total c vs) with (0 + total c vs). generalize 0 as s.
      revert vs H; induction (rng lo hi) as [|x l IHl]; intros vs H s; cbn [flat_map fold_opt] in *.
      * inversion H; subst. f_equal. unfold total; simpl. change (sumZ []) with 0. lia.
      * rewrite map_opt_app in H.
        destruct (map_opt (get data) (addrs _ _ _ _ _)) as [v|] eqn:E; cbn [bind] in H; [|discriminate].
        destruct (map_opt _ (flat_map _ l)) as [w|]; cbn [bind] in *; [|discriminate]. inversion H; subst.
        apply IH in E. rewrite E. cbn [bind]. rewrite (IHl w) by reflexivity. f_equal.
        rewrite total_app. lia.
Qed.

Lemma write_all_app (vs ws : list T) buf off :
  write_all c (vs ++ ws) buf off = do r <- write_all c vs buf off; write_all c ws (fst r) (snd r).
Proof.
  revert buf off; induction vs as [|v vs IH]; intros buf off; simpl; [reflexivity|].
  destruct (c_to c v buf off) as [[b n]|]; simpl; [|reflexivity]. apply IH.
Qed.

Lemma to_buffer_flat data axs mn mx p vs buf off r :
  map_opt (get data) (addrs rng axs mn mx p) = Some vs ->
  write_all c vs buf off = Some r ->
  to_buffer c rng data axs mn mx p buf off = Some (fst r, snd r - off).
Proof.
  revert mn mx p vs buf off r; induction axs as [|a axs IH]; intros mn mx p vs buf off r.
  - simpl. intros H; inversion H; simpl. intros W; inversion W; simpl. do 2 f_equal; lia.
  - destruct mn as [|lo mn].
    { destruct axs; simpl; intros H; inversion H; simpl; intros W; inversion W; simpl; do 2 f_equal; lia. }
    destruct mx as [|hi mx].
    { destruct axs; simpl; intros H; inversion H; simpl; intros W; inversion W; simpl; do 2 f_equal; lia. }
    destruct axs as [|b axs].
    + simpl. intros H. replace off with (off + 0) at 1 by lia. generalize 0 as s.
      revert vs H buf; induction (rng lo hi) as [|x l IHl]; simpl; intros vs H buf s W.
      * inversion H; subst. inversion W; subst; simpl. do 2 f_equal. lia.
      * destruct (get data _) as [v|]; simpl in *; [|discriminate].
        destruct (map_opt _ _) as [w|]; simpl in *; [|discriminate]. inversion H; subst. simpl in W.
        destruct (c_to c v buf (off + s)) as [[b' n]|]; simpl in *; [|discriminate].
        rewrite (IHl w eq_refl b' (s + n)); [reflexivity|]. rewrite <- W. f_equal. lia.
    + rewrite addrs_cons, to_buffer_cons. intros H. replace off with (off + 0) at 1 by lia. generalize 0 as s.
      revert vs H buf; induction (rng lo hi) as [|x l IHl]; intros vs H buf s W; cbn [flat_map fold_opt] in *.
      * inversion H; subst. inversion W; subst; simpl. do 2 f_equal. lia.
      * rewrite map_opt_app in H.
        destruct (map_opt (get data) (addrs _ _ _ _ _)) as [v|] eqn:E; cbn [bind] in H; [|discriminate].
        destruct (map_opt _ (flat_map _ l)) as [w|]; simpl in H; [|discriminate]. inversion H; subst.
        rewrite write_all_app in W. destruct (write_all c v buf (off + s)) as [r1|] eqn:W1; simpl in W; [|discriminate].
        rewrite (IH _ _ _ _ _ _ _ E W1). cbn [bind fst snd].
        rewrite (IHl w eq_refl (fst r1) (s + (snd r1 - (off + s)))); [reflexivity|]. rewrite <- W. f_equal. lia.
Qed.

Fixpoint put_all (data : list T) (ps : list Z) (vs : list T) : option (list T) :=
  match ps, vs with
  | p :: ps', v :: vs' => do d <- put data p v; put_all d ps' vs'
  | _, _ => Some data
  end.
Lemma put_all_app data ps qs vs ws : length ps = length vs ->
  put_all data (ps ++ qs) (vs ++ ws) = do d <- put_all data ps vs; put_all d qs ws.
Proof.
  revert data vs; induction ps as [|p ps IH]; intros data [|v vs] L; simpl in *; try discriminate; [reflexivity|].
  destruct (put data p v); simpl; [|reflexivity]. apply IH. lia.
Qed.
Lemma read_all_app n m buf off :
  read_all c (n + m) buf off =
  do r <- read_all c n buf off; do r' <- read_all c m buf (snd r); Some (fst r ++ fst r', snd r').
Proof.
  revert off; induction n as [|n IH]; intros off; simpl.
  - destruct (read_all c m buf off) as [[? ?]|]; reflexivity.
  - destruct (c_from c buf off) as [[v k]|]; simpl; [|reflexivity]. rewrite IH.
    destruct (read_all c n buf (off + k)) as [[vs o]|]; simpl; [|reflexivity].
    destruct (read_all c m buf o) as [[? ?]|]; reflexivity.
Qed.
Lemma read_all_len n buf off vs o : read_all c n buf off = Some (vs, o) -> length vs = n.
Proof.
  revert off vs o; induction n as [|n IH]; intros off vs o; simpl; intros H; [now inversion H|].
  destruct (c_from c buf off) as [[v k]|]; simpl in H; [|discriminate].
  destruct (read_all c n buf (off + k)) as [[vs' o']|] eqn:E; simpl in H; [|discriminate].
  inversion H; subst. simpl. f_equal. eauto.
Qed.

Lemma from_buffer_flat data axs mn mx p vs buf off off' data' :
  read_all c (length (addrs rng axs mn mx p)) buf off = Some (vs, off') ->
  put_all data (addrs rng axs mn mx p) vs = Some data' ->
  from_buffer c rng data axs mn mx p buf off = Some (data', off' - off).
Proof.
  revert mn mx p vs data off off' data'; induction axs as [|a axs IH]; intros mn mx p vs data off off' data'.
  - simpl. intros H; inversion H; simpl. intros W; inversion W; simpl. do 2 f_equal; lia.
  - destruct mn as [|lo mn].
    { destruct axs; simpl; intros H; inversion H; simpl; intros W; inversion W; simpl; do 2 f_equal; lia. }
    destruct mx as [|hi mx].
    { destruct axs; simpl; intros H; inversion H; simpl; intros W; inversion W; simpl; do 2 f_equal; lia. }
    destruct axs as [|b axs].
    + simpl. intros H. replace off with (off + 0) in H by lia. revert H. generalize 0 as s.
      revert vs data; induction (rng lo hi) as [|x l IHl]; simpl; intros vs data s H W.
      * inversion H; subst. inversion W; subst; simpl. do 2 f_equal. lia.
      * destruct (c_from c buf (off + s)) as [[v k]|]; simpl in *; [|discriminate].
        destruct (read_all c _ buf (off + s + k)) as [[vs' o']|] eqn:E; simpl in H; [|discriminate].
        inversion H; subst. simpl in W.
        destruct (put data _ v) as [d|]; simpl in *; [|discriminate].
        rewrite (IHl vs' d (s + k)); [reflexivity| |auto]. rewrite <- E. f_equal. lia.
    + rewrite addrs_cons, from_buffer_cons. intros H. replace off with (off + 0) in H by lia. revert H. generalize 0 as s.
      revert vs data; induction (rng lo hi) as [|x l IHl]; intros vs data s H W; cbn [flat_map fold_opt] in *.
      * inversion H; subst. inversion W; subst; simpl. do 2 f_equal. lia.
      * rewrite app_length, read_all_app in H.
        destruct (read_all c _ buf (off + s)) as [[v1 o1]|] eqn:E1; simpl in H; [|discriminate].
        destruct (read_all c _ buf o1) as [[v2 o2]|] eqn:E2; simpl in H; [|discriminate].
        inversion H; subst. rewrite put_all_app in W by (symmetry; eapply read_all_len; eauto).
        destruct (put_all data _ v1) as [d|] eqn:P1; simpl in W; [|discriminate].
        rewrite (IH _ _ _ _ _ _ _ _ E1 P1). cbn [bind fst snd].
        rewrite (IHl v2 d (s + (o1 - (off + s)))); [reflexivity| |auto].
        rewrite <- E2. f_equal. lia.
Qed.
End Flat.

(* ---- writing into distinct places ---- *)
Lemma put_all_ok {T} (data : list T) ps vs :
  NoDup ps -> Forall (fun p => 0 <= p < zlen data) ps -> length vs = length ps ->
  exists data', put_all data ps vs = Some data' /\ zlen data' = zlen data /\
    (forall k p, nth_error ps k = Some p -> get data' p = nth_error vs k) /\
    (forall p, ~ In p ps -> get data' p = get data p).
Proof.
  revert data vs; induction ps as [|p ps IH]; intros data [|v vs] N F L; simpl in *; try discriminate.
  - exists data. repeat split; auto. intros [|k] p H; discriminate.
  - inversion N as [|? ? N1 N2]; inversion F as [|? ? F1 F2]; subst.
    rewrite put_ok by auto. simpl. pose proof (put_ok data p v F1) as P.
    pose proof (put_len _ _ _ _ P) as Pl.
    destruct (IH (set_nth (Z.to_nat p) data v) vs N2) as (d' & E & L' & G1 & G2).
    { eapply Forall_impl; [|exact F2]. intros a Ha; simpl in *. lia. } { lia. }
    exists d'. split; [exact E|]. split; [lia|]. split.
    + intros [|k] q H; simpl in *; [|eauto]. inversion H; subst. rewrite G2 by auto.
      eapply get_put_eq; eauto.
    + intros q Hq. rewrite G2 by tauto. eapply get_put_ne; [exact P|]. intros ->; tauto.
Qed.

(* ---- the region theorem ---- *)
Lemma region_copy {T} (c : codec T) valid rng gA gB axsA axsB mnA mxA mnB mxB dataA :
  serialises c valid -> rng_ok rng ->
  wf_axes gA axsA -> wf_axes gB axsB -> axsA <> [] -> length axsB = length axsA ->
  length mnA = length axsA -> length mxA = length axsA -> length mnB = length axsA -> length mxB = length axsA ->
  Forall2 (fun a b => fst a - snd a = fst b - snd b) (combine mxA mnA) (combine mxB mnB) ->
  zlen dataA = cells axsA ->
  (forall y, in_rng rng mnA mxA y -> in_box (map a_s0 axsA) (map a_s1 axsA) y) ->
  (forall y, in_rng rng mnB mxB y -> in_box (map a_s0 axsB) (map a_s1 axsB) y) ->
  (forall y v, in_rng rng mnA mxA y -> get dataA (encode axsA y) = Some v -> valid v) ->
  exists n bs, 0 <= n /\ zlen bs = n /\ buffer_size c rng dataA axsA mnA mxA 0 = Some n /\
    (forall pre old post, zlen old = n ->
       to_buffer c rng dataA axsA mnA mxA 0 (pre ++ old ++ post) (zlen pre) = Some (pre ++ bs ++ post, n)) /\
    (forall pre post dataB, zlen dataB = cells axsB ->
       exists dataB', from_buffer c rng dataB axsB mnB mxB 0 (pre ++ bs ++ post) (zlen pre) = Some (dataB', n) /\
         zlen dataB' = zlen dataB /\
         (forall y, in_rng rng mnB mxB y ->
            get dataB' (encode axsB y) = get dataA (encode axsA (translate mnB mnA y))) /\
         (forall y, in_box (map a_s0 axsB) (map a_s1 axsB) y -> ~ in_rng rng mnB mxB y ->
            get dataB' (encode axsB y) = get dataB (encode axsB y))).
Proof.
  intros S R WA WB Hne LB L1 L2 L3 L4 Sh LdA BA BB V.
  set (CA := coords rng mnA mxA). set (CB := coords rng mnB mxB).
  assert (CA = map (translate mnB mnA) CB) as EC by (apply coords_shape; auto; congruence).
  assert (addrs rng axsA mnA mxA 0 = map (encode axsA) CA) as AA.
  { rewrite addrs_coords by auto. apply map_ext; intros; lia. }
  assert (addrs rng axsB mnB mxB 0 = map (encode axsB) CB) as AB.
  { rewrite addrs_coords; [apply map_ext; intros; lia| |congruence|congruence].
    destruct axsB; [destruct axsA; simpl in *; [contradiction|discriminate]|discriminate]. }
  assert (forall y, In y CA -> in_rng rng mnA mxA y) as InA by (intros y; apply in_coords; congruence).
  assert (forall y, In y CB <-> in_rng rng mnB mxB y) as InB by (intros y; apply in_coords; congruence).
  assert (exists vs, map_opt (get dataA) (map (encode axsA) CA) = Some vs) as [vs Evs].
  { apply map_opt_ok. intros p Hp. apply in_map_iff in Hp as (y & <- & Hy).
    apply get_ok. rewrite LdA. eapply encode_bounds; eauto. }
  pose proof (map_opt_some _ _ _ Evs) as F2.
  assert (Forall valid vs) as Vvs.
  { apply Forall_forall. intros v Hv. apply In_nth_error in Hv as [k Hk].
    assert (exists p, nth_error (map (encode axsA) CA) k = Some p /\ get dataA p = Some v) as (p & Hp & Gp).
    { clear -F2 Hk. revert k Hk; induction F2 as [|p w ps ws H F2 IH]; intros [|k] Hk; simpl in *; try discriminate.
      - inversion Hk; subst; eauto. - eauto. }
    rewrite nth_error_map in Hp. destruct (nth_error CA k) as [y|] eqn:Ek; simpl in Hp; [|discriminate].
    inversion Hp; subst. apply nth_error_In in Ek. eapply V; eauto. }
  destruct (sequence c valid vs S Vvs) as (bs & Lbs & Wr & Rd).
  exists (total c vs), bs. split; [rewrite <- Lbs; apply zlen_nonneg|]. split; [auto|].
  split; [apply buffer_size_flat; now rewrite AA|]. split.
  - intros pre old post Lo. rewrite <- AA in Evs.
    rewrite (to_buffer_flat c rng dataA axsA mnA mxA 0 vs _ _ _ Evs (Wr pre old post ltac:(lia))).
    simpl. do 2 f_equal. lia.
  - intros pre post dataB LdB.
    assert (length vs = length CB) as Lvs.
    { apply map_opt_length in Evs. rewrite Evs, map_length, EC, map_length. reflexivity. }
    assert (forall y, In y CB -> in_box (map a_s0 axsB) (map a_s1 axsB) y) as SB.
    { intros y Hy. apply BB. now apply InB. }
    destruct (put_all_ok dataB (map (encode axsB) CB) vs) as (d' & P & Ld & G1 & G2).
    { assert (NoDup CB) as N by (apply NoDup_coords; auto). clear -N SB WB.
      induction N as [|y l Hy N IH]; simpl; [constructor|]. constructor.
      - intros H. apply in_map_iff in H as (z & E & Hz). apply Hy.
        rewrite <- (encode_inj gB axsB z y WB); auto; apply SB; simpl; auto.
      - apply IH. intros; apply SB; simpl; auto. }
    { apply Forall_forall. intros p Hp. apply in_map_iff in Hp as (y & <- & Hy). rewrite LdB.
      eapply encode_bounds; eauto. }
    { now rewrite map_length. }
    exists d'. split.
    { rewrite (from_buffer_flat c rng dataB axsB mnB mxB 0 vs _ (zlen pre) (zlen pre + zlen bs) d').
      - do 2 f_equal. lia.
      - rewrite AB, map_length, <- Lvs. apply Rd.
      - now rewrite AB. }
    split; [auto|]. split.
    + intros y Hy. apply InB in Hy. apply In_nth_error in Hy as [k Hk].
      rewrite (G1 k) by (rewrite nth_error_map, Hk; reflexivity).
      assert (nth_error (map (encode axsA) CA) k = Some (encode axsA (translate mnB mnA y))) as HA.
      { rewrite EC, map_map, nth_error_map, Hk. reflexivity. }
      clear -F2 HA. revert k HA; induction F2 as [|p w ps ws H F2 IH]; intros [|k] HA; simpl in *; try discriminate.
      * inversion HA; subst. congruence. * auto.
    + intros y Hy Hn. apply G2. intros H. apply in_map_iff in H as (z & E & Hz). apply Hn.
      apply InB. rewrite <- (encode_inj gB axsB z y WB); auto.
Qed.
