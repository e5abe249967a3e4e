(** Model of src/Utility/ThreadGroups.C (OPM/IFEM).

    Only the USE_OPENMP branches are modelled; without OpenMP every calcGroups
    overload is [oneGroup] (lines 87-88, 179-180, 246-247, 347-348), which is
    modelled separately.  All integers are unbounded naturals: element counts,
    thread counts and widths are non-negative in every caller.  [omp_get_max_threads()]
    is the parameter [maxthr].  The two lists [tg[0]], [tg[1]] are a pair. *)
From Coq Require Import List Arith Bool Lia.
Import ListNotations.

(** ThreadGroups.h:37  enum StripDirection *)
Inductive dir := NONE | U | V | W | ANY.

Definition is_U (d : dir) := match d with U => true | _ => false end.
Definition is_V (d : dir) := match d with V => true | _ => false end.
Definition is_W (d : dir) := match d with W => true | _ => false end.
Definition is_ANY (d : dir) := match d with ANY => true | _ => false end.

Definition imat := list (list nat).
(** ThreadGroups.h:110-114: the direction and the two groups of element lists *)
Record groups := mkG { stripDir : dir; tg0 : imat; tg1 : imat }.

(** ThreadGroups.h:41, the default constructor: both groups empty. *)
Definition fresh (d : dir) : groups := mkG d [] [].

(** std::vector::resize on a vector of vectors (keeps the leading entries). *)
Definition vresize {A} (n : nat) (x : A) (l : list A) : list A :=
  firstn n l ++ repeat x (n - length l).

(** ThreadGroups.C:45-51 oneGroup(nel).  [tg[0][0].resize(nel)] followed by iota
    overwrites whatever was in the list. *)
Definition oneGroup (g : groups) (nel : nat) : groups :=
  mkG (stripDir g) [seq 0 nel] [].

(** ThreadGroups.C:64-70 oneStripe(nel): [tg[0][iel].resize(1,iel)] keeps an
    existing first entry. *)
Definition oneStripe (g : groups) (nel : nat) : groups :=
  mkG (stripDir g)
      (map (fun p => vresize 1 (fst p) (snd p))
           (combine (seq 0 nel) (vresize nel [] (tg0 g)))) [].

(** ThreadGroups.C:54-62 oneGroup(nel,elms); a negative first entry means "no
    elements" and is [None] here. *)
Definition oneGroupL (g : groups) (nel : nat) (elms : list (option nat)) : groups :=
  match elms with
  | [] => oneGroup g nel
  | e :: _ =>
    mkG (stripDir g)
        (vresize 1 (match e with Some _ => flat_map (fun o => match o with Some x => [x] | None => [] end) elms
                               | None => [] end) (tg0 g)) []
  end.

(** ThreadGroups.C:421-437 getStripDirection (2D) *)
Definition getStripDirection2 (nel1 nel2 parts : nat) : dir :=
  let s1 := nel1 / parts in
  let s2 := nel2 / parts in
  let r1 := nel1 - s1*parts in
  let r2 := nel2 - s2*parts in
  if r1*nel2 <? r2*nel1 then U
  else if r2*nel1 <? r1*nel2 then V
  else if nel2 <? nel1 then U else V.

(** ThreadGroups.C:440-473 getStripDirection (3D) *)
Definition getStripDirection3 (nel1 nel2 nel3 parts : nat) : dir :=
  let r1 := nel1 - (nel1/parts)*parts in
  let r2 := nel2 - (nel2/parts)*parts in
  let r3 := nel3 - (nel3/parts)*parts in
  let a := r1*nel2*nel3 in
  let b := nel1*r2*nel3 in
  let c := nel1*nel2*r3 in
  if (a <? b) && (a <? c) then U
  else if (b <? a) && (b <? c) then V
  else if (c <? a) && (c <? b) then W
  else if b <? a then (if nel3 <? nel2 then V else W)
  else if c <? b then (if nel3 <? nel1 then U else W)
  else if a <? c then (if nel2 <? nel1 then U else V)
  else if (nel2 <=? nel1) && (nel3 <=? nel1) then U
  else if (nel1 <=? nel2) && (nel3 <=? nel2) then V
  else W.

(** ThreadGroups.C:182-183 (also 97-98, 257-258, 350-351): initial [parts] *)
Definition initParts (maxthr : nat) : nat := if 1 <? maxthr then 2*maxthr else 1.

(** ThreadGroups.C:189-199 (also 105-119, 265-279, 357-367): the while loop that
    reduces the number of threads until strips are wide enough.  Inside the loop
    [parts = 2*threads] always.  Returns (threads, stripsize). *)
Fixpoint reduceThreads (threads minsize els : nat) : nat * nat :=
  match threads with
  | S (S _ as t') =>
    let s := els / (2*threads) in
    if s <? minsize then reduceThreads t' minsize els else (threads, s)
  | _ => (1, els)
  end.

(** [v[k]++] *)
Fixpoint incrAt (k : nat) (l : list nat) : list nat :=
  match l, k with
  | [], _ => []
  | x :: r, 0 => S x :: r
  | x :: r, S k' => x :: incrAt k' r
  end.

(** ThreadGroups.C:215-218: distribute the remainder, [for (i=1; i<=remainder; ++i)
    stripsizes[i%2][threads-(i+1)/2]++] *)
Definition distribute (threads stripsize remainder : nat) : list nat * list nat :=
  fold_left (fun (s : list nat * list nat) i =>
               let k := threads - (i+1)/2 in
               if i mod 2 =? 0 then (incrAt k (fst s), snd s)
               else (fst s, incrAt k (snd s)))
            (seq 1 remainder)
            (repeat stripsize threads, repeat stripsize threads).

(** ThreadGroups.C:220-225: running offsets of the strips (not yet multiplied by
    [mul]); returns the offsets of the strips of group 0 and group 1 *)
Fixpoint offsets (offs : nat) (s0 s1 : list nat) : list nat * list nat :=
  match s0, s1 with
  | w0 :: r0, w1 :: r1 =>
    let '(o0, o1) := offsets (offs + w0 + w1) r0 r1 in
    (offs :: o0, (offs + w0) :: o1)
  | _, _ => ([], [])
  end.

(** ThreadGroups.C:231-235 the elements of one strip, 2D *)
Definition box2 (start maxx maxy nel1 : nat) : list nat :=
  flat_map (fun i2 => map (fun i1 => start + i1 + i2*nel1) (seq 0 maxx)) (seq 0 maxy).

(** ThreadGroups.C:405-411 the elements of one strip, 3D *)
Definition box3 (start maxx maxy maxz nel1 nel2 : nat) : list nat :=
  flat_map (fun i3 =>
    flat_map (fun i2 =>
      map (fun i1 => start + i1 + nel1*(i2+nel2*i3)) (seq 0 maxx)) (seq 0 maxy)) (seq 0 maxz).

(** [tg[i].resize(threads)] and push_back of the strips (lines 227-236): entries
    already present are kept, the new elements are appended. *)
Definition appendGroups (old : imat) (threads : nat) (new : imat) : imat :=
  map (fun p => fst p ++ snd p) (combine (vresize threads [] old) new).

(** ThreadGroups.C:176-241 calcGroups(nel1,nel2,minsize) *)
Definition calcGroups2 (g : groups) (maxthr nel1 nel2 minsize : nat) : groups :=
  let parts := initParts maxthr in
  let sd := if is_ANY (stripDir g) then getStripDirection2 nel1 nel2 parts else stripDir g in
  let mul := if is_U sd then 1 else nel1 in
  let els := if is_U sd then nel1 else nel2 in
  let '(threads, stripsize) := reduceThreads maxthr minsize els in
  let remainder := if 1 <? threads then els - stripsize*(2*threads) else 0 in
  if threads =? 1 then oneGroup (mkG sd (tg0 g) (tg1 g)) (nel1*nel2)
  else
    let '(s0, s1) := distribute threads stripsize remainder in
    let '(o0, o1) := offsets 0 s0 s1 in
    let mk := fun p : nat * nat =>
      let '(o, w) := p in
      box2 (o*mul) (if is_U sd then w else nel1) (if is_V sd then w else nel2) nel1 in
    mkG sd (appendGroups (tg0 g) threads (map mk (combine o0 s0)))
           (appendGroups (tg1 g) threads (map mk (combine o1 s1))).

(** ThreadGroups.C:344-418 calcGroups(nel1,nel2,nel3,minsize) *)
Definition calcGroups3 (g : groups) (maxthr nel1 nel2 nel3 minsize : nat) : groups :=
  let parts := initParts maxthr in
  let sd := if is_ANY (stripDir g) then getStripDirection3 nel1 nel2 nel3 parts else stripDir g in
  let mul := if is_U sd then 1 else nel1*(if is_V sd then 1 else nel2) in
  let els := if is_U sd then nel1 else if is_V sd then nel2 else nel3 in
  let '(threads, stripsize) := reduceThreads maxthr minsize els in
  let remainder := if 1 <? threads then els - stripsize*(2*threads) else 0 in
  if threads =? 1 then oneGroup (mkG sd (tg0 g) (tg1 g)) (nel1*nel2*nel3)
  else
    let '(s0, s1) := distribute threads stripsize remainder in
    let '(o0, o1) := offsets 0 s0 s1 in
    let mk := fun p : nat * nat =>
      let '(o, w) := p in
      box3 (o*mul) (if is_U sd then w else nel1) (if is_V sd then w else nel2)
           (if is_W sd then w else nel3) nel1 nel2 in
    mkG sd (appendGroups (tg0 g) threads (map mk (combine o0 s0)))
           (appendGroups (tg1 g) threads (map mk (combine o1 s1))).

(** number of set flags, lines 92-94 *)
Definition countTrue (m : list bool) : nat := length (filter (fun b => b) m).

(** ThreadGroups.C:143-148: advance over the mask until [need] set flags are
    found; returns the number of positions passed (including zero spans) and the
    remaining mask.  [None] is a read past the end of the mask (undefined
    behaviour in the code). *)
Fixpoint scan (need : nat) (m : list bool) : option (nat * list bool) :=
  match need with
  | 0 => Some (0, m)
  | S need' =>
    match m with
    | [] => None
    | b :: m' =>
      match scan (if b then need' else need) m' with
      | Some (w, r) => Some (S w, r)
      | None => None
      end
    end
  end.

(** ThreadGroups.C:141-157: the loop over threads, returning the start offsets
    and the widened strip sizes of both groups *)
Fixpoint scanStrips (offs : nat) (s0 s1 : list nat) (m : list bool)
  : option ((list nat * list nat) * (list nat * list nat)) :=
  match s0, s1 with
  | w0 :: r0, w1 :: r1 =>
    match scan w0 m with
    | None => None
    | Some (z0, m1) =>
      match scan w1 m1 with
      | None => None
      | Some (z1, m2) =>
        match scanStrips (offs + z0 + z1) r0 r1 m2 with
        | None => None
        | Some ((o0, o1), (t0, t1)) =>
          Some ((offs :: o0, (offs + z0) :: o1), (z0 :: t0, z1 :: t1))
        end
      end
    end
  | _, _ => Some (([], []), ([], []))
  end.

(** ThreadGroups.C:85-173 calcGroups(el1,el2,p1,p2); [None] = undefined behaviour *)
Definition calcGroupsB2 (g : groups) (maxthr : nat) (el1 el2 : list bool) (p1 p2 : nat)
  : option groups :=
  let n1 := countTrue el1 in
  let n2 := countTrue el2 in
  let parts := initParts maxthr in
  let sd := if is_ANY (stripDir g) then getStripDirection2 n1 n2 parts else stripDir g in
  let nel1 := length el1 in
  let nel2 := length el2 in
  let mul := if is_U sd then 1 else nel1 in
  let els := if is_U sd then n1 else n2 in
  let minsize := if is_U sd then p1 else p2 in
  let '(threads, stripsize) := reduceThreads maxthr minsize els in
  let remainder := if 1 <? threads then els - stripsize*(2*threads) else 0 in
  if threads =? 1 then Some (oneGroup (mkG sd (tg0 g) (tg1 g)) (nel1*nel2))
  else
    let '(s0, s1) := distribute threads stripsize remainder in
    match scanStrips 0 s0 s1 (if is_U sd then el1 else el2) with
    | None => None
    | Some ((o0, o1), (t0, t1)) =>
      let mk := fun p : nat * nat =>
        let '(o, w) := p in
        box2 (o*mul) (if is_U sd then w else nel1) (if is_V sd then w else nel2) nel1 in
      Some (mkG sd (appendGroups (tg0 g) threads (map mk (combine o0 t0)))
                   (appendGroups (tg1 g) threads (map mk (combine o1 t1))))
    end.

(** ThreadGroups.C:243-341 calcGroups(el1,el2,el3,p1,p2,p3) *)
Definition calcGroupsB3 (g : groups) (maxthr : nat) (el1 el2 el3 : list bool) (p1 p2 p3 : nat)
  : option groups :=
  let n1 := countTrue el1 in
  let n2 := countTrue el2 in
  let n3 := countTrue el3 in
  let parts := initParts maxthr in
  let sd := if is_ANY (stripDir g) then getStripDirection3 n1 n2 n3 parts else stripDir g in
  let nel1 := length el1 in
  let nel2 := length el2 in
  let nel3 := length el3 in
  let mul := if is_U sd then 1 else nel1*(if is_V sd then 1 else nel2) in
  let els := if is_U sd then n1 else if is_V sd then n2 else n3 in
  let minsize := if is_U sd then p1 else if is_V sd then p2 else p3 in
  let '(threads, stripsize) := reduceThreads maxthr minsize els in
  let remainder := if 1 <? threads then els - stripsize*(2*threads) else 0 in
  if threads =? 1 then Some (oneGroup (mkG sd (tg0 g) (tg1 g)) (nel1*nel2*nel3))
  else
    let '(s0, s1) := distribute threads stripsize remainder in
    match scanStrips 0 s0 s1 (if is_U sd then el1 else if is_V sd then el2 else el3) with
    | None => None
    | Some ((o0, o1), (t0, t1)) =>
      let mk := fun p : nat * nat =>
        let '(o, w) := p in
        box3 (o*mul) (if is_U sd then w else nel1) (if is_V sd then w else nel2)
             (if is_W sd then w else nel3) nel1 nel2 in
      Some (mkG sd (appendGroups (tg0 g) threads (map mk (combine o0 t0)))
                   (appendGroups (tg1 g) threads (map mk (combine o1 t1))))
    end.

(** ThreadGroups.C:476-482 applyMap; [None] = index outside the map (undefined
    behaviour in the code) *)
Fixpoint sequence {A} (l : list (option A)) : option (list A) :=
  match l with
  | [] => Some []
  | None :: _ => None
  | Some x :: r => match sequence r with Some r' => Some (x :: r') | None => None end
  end.
Definition mapList (mp : list nat) (l : list nat) : option (list nat) :=
  sequence (map (fun e => nth_error mp e) l).
Definition applyMap (g : groups) (mp : list nat) : option groups :=
  match sequence (map (mapList mp) (tg0 g)), sequence (map (mapList mp) (tg1 g)) with
  | Some a, Some b => Some (mkG (stripDir g) a b)
  | _, _ => None
  end.

(** ThreadGroups.C:485-500 filter: a default-constructed object (direction ANY)
    receives the selected elements. *)
Definition memb (l : list nat) (e : nat) : bool := existsb (Nat.eqb e) l.
Definition filterGroups (g : groups) (elmList : list nat) : groups :=
  mkG ANY (map (filter (memb elmList)) (tg0 g)) (map (filter (memb elmList)) (tg1 g)).
