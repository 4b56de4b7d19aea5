(** * Counting the steps of a program

    A counted computation is a result together with the number of elementary steps it
    took: one for every read or write of a vector entry, one for every turn of a loop, and
    [k] for creating or copying a vector of [k] entries.  Arithmetic, comparisons and moves
    of scalars that go with such a step are not counted separately. *)
From Verif Require Import Base.

Definition counted (A : Type) : Type := (res A * nat)%type.

Definition done {A} (a : A) : counted A := (Ok a, 0).
(** [k] steps, then [m] *)
Definition steps {A} (k : nat) (m : counted A) : counted A := (fst m, k + snd m).
(** one step with the given outcome *)
Definition step {A} (r : res A) : counted A := (r, 1).
(** an operation of [k] steps with the given outcome *)
Definition takes {A} (k : nat) (r : res A) : counted A := (r, k).

Definition cbind {A B : Type} (m : counted A) (f : A -> counted B) : counted B :=
  match m with
  | (Ok a, k) => let (r, k') := f a in (r, k + k')
  | (Err, k) => (Err, k)
  | (Panic, k) => (Panic, k)
  | (NoFuel, k) => (NoFuel, k)
  end.
Notation "'let?' x ':=' m 'in' k" := (cbind m (fun x => k))
  (at level 200, x pattern, m at level 100, k at level 200, right associativity).

(** a [for] loop: one step for every turn *)
Fixpoint cfold {A T : Type} (body : T -> A -> counted T) (l : list A) (s : T) : counted T :=
  match l with
  | [] => done s
  | x :: tl => let? s' := steps 1 (body s x) in cfold body tl s'
  end.
Fixpoint cmap {A B : Type} (f : A -> counted B) (l : list A) : counted (list B) :=
  match l with
  | [] => done []
  | x :: tl => let? y := steps 1 (f x) in let? ys := cmap f tl in done (y :: ys)
  end.

(** [m] is a counted run of [r] of at most [k] steps *)
Definition within {A} (m : counted A) (r : res A) (k : nat) : Prop := fst m = r /\ snd m <= k.

Lemma within_le {A} (m : counted A) r k k' : within m r k -> k <= k' -> within m r k'.
Proof. intros (H1 & H2) H. split; auto; lia. Qed.
Lemma within_done {A} (a : A) k : within (done a) (Ok a) k.
Proof. split; cbn; auto; lia. Qed.
Lemma within_step {A} (r : res A) k : 1 <= k -> within (step r) r k.
Proof. split; auto. Qed.
Lemma within_takes {A} (r : res A) j k : j <= k -> within (takes j r) r k.
Proof. split; auto. Qed.
Lemma within_steps {A} (m : counted A) r j k : j <= k -> within m r (k - j) -> within (steps j m) r k.
Proof. intros H (H1 & H2). split; cbn; auto; lia. Qed.
Lemma within_bind {A B} (m : counted A) (f : A -> counted B) r g j k : within m r j -> j <= k ->
  (forall a, r = Ok a -> within (f a) (g a) (k - j)) -> within (cbind m f) (bind r g) k.
Proof.
  intros (E & HJ) HK H. destruct m as [[a| | |] c]; cbn [fst snd] in *; subst r; cbn [bind cbind].
  - destruct (H a eq_refl) as (H1 & H2). destruct (f a) as (r, c'). split; cbn [fst snd] in *; auto; lia.
  - split; cbn; auto; lia.
  - split; cbn; auto; lia.
  - split; cbn; auto; lia.
Qed.
Lemma within_fold {A T} (f : T -> A -> counted T) g (w : A -> nat) l :
  (forall s x, In x l -> within (f s x) (g s x) (w x)) ->
  forall s, within (cfold f l s) (fold_res g l s) (list_sum (map (fun x => S (w x)) l)).
Proof.
  induction l as [|x l IH]; intros H s; [apply within_done|]. cbn [cfold fold_res].
  change (list_sum (map (fun x => S (w x)) (x :: l))) with (S (w x) + list_sum (map (fun x => S (w x)) l)).
  eapply within_bind with (j := S (w x)).
  - apply within_steps; [lia|]. eapply within_le; [apply H; left; auto|lia].
  - lia.
  - intros s' _. eapply within_le; [apply IH; intros; apply H; right; auto|lia].
Qed.
Lemma sum_const {A} (k : nat) (l : list A) : list_sum (map (fun _ => k) l) = length l * k.
Proof. induction l as [|x l IH]; cbn [map length]; auto. change (k + list_sum (map (fun _ => k) l) = S (length l) * k). lia. Qed.
Lemma within_fold_const {A T} (f : T -> A -> counted T) g k l :
  (forall s x, In x l -> within (f s x) (g s x) k) ->
  forall s, within (cfold f l s) (fold_res g l s) (length l * S k).
Proof.
  intros H s. pose proof (@within_fold _ _ f g (fun _ => k) l H s) as W. cbv beta in W. rewrite (@sum_const A (S k)) in W. auto.
Qed.
Lemma within_map {A B} (f : A -> counted B) g k l :
  (forall x, In x l -> within (f x) (g x) k) -> within (cmap f l) (map_res g l) (length l * S k).
Proof.
  induction l as [|x l IH]; intros H; cbn [cmap map_res length]; [apply within_done|].
  eapply within_bind with (j := S k).
  - apply within_steps; [lia|]. eapply within_le; [apply H; left; auto|lia].
  - lia.
  - intros y _. eapply within_bind with (j := length l * S k).
    + apply IH. intros; apply H; right; auto.
    + lia.
    + intros ys _. apply within_done.
Qed.
