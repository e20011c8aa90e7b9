-Q theories Verif

theories/Base.v
theories/Prims.v
theories/Model.v
theories/Infra.v
theories/Total.v
theories/Safe.v
theories/Depth.v
theories/Loose.v
theories/Arrays.v
theories/Spec.v
theories/Refine.v
theories/Main.v
theories/Api.v
theories/ApiProofs.v
theories/Callbacks.v
theories/Observe.v
theories/ObserveApi.v
theories/History.v
theories/ApiFacts.v
theories/DenFacts.v
theories/Closed.v
theories/Accept.v
theories/Complete.v
theories/Order.v
theories/Calls.v
theories/Members.v
theories/Free.v
theories/Round.v
theories/Looks.v
theories/Blank.v
theories/Outcome.v
theories/Access.v
theories/Findings.v
theories/Docs1.v
theories/Docs2.v
theories/Docs3.v
theories/Move.v
theories/MoveState.v
theories/Docs4.v
theories/Unset.v
theories/Docs5.v
theories/Strtod.v
theories/Json.v
theories/Grammar.v
theories/Grammar2.v
theories/Docs6.v
theories/Docs7.v
theories/Docs8.v
theories/Typed.v
theories/Recall.v
theories/Docs9.v
theories/Docs10.v
theories/Docs11.v
theories/StreamSpec.v
theories/Stream.v
theories/Log.v
theories/StreamApi.v
theories/Docs12.v
theories/Alloc.v
theories/Docs13.v
theories/Pops.v
theories/Docs14.v
theories/Kept.v
theories/Docs15.v
theories/Same.v
theories/Lock.v
theories/LockApi.v
theories/JsonPlaced.v
theories/Docs16.v
theories/From.v
theories/Docs17.v
theories/Space.v
theories/Docs18.v
theories/Cut.v
theories/Docs19.v
theories/Errors.v
theories/Docs20.v
theories/Veil.v
theories/Docs21.v
theories/Newer.v
theories/Lighter.v
theories/Docs22.v
theories/Time.v
theories/Docs23.v
theories/Docs24.v
theories/Readme.v
theories/Docs25.v
theories/Grown.v
theories/Docs26.v
theories/Docs27.v
theories/Shuffle.v
theories/Docs28.v
theories/Docs29.v
theories/Docs30.v
theories/Docs31.v
theories/Properties.v
theories/Examples.v
theories/Suite.v
