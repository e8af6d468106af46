-Q theories Verif
theories/Bytes.v
theories/Spec.v
theories/Io.v
theories/Boundary.v
theories/BytesProofs.v
theories/BoundaryProofs.v
theories/Utf8.v
theories/Utf8Proofs.v
theories/Httparse.v
theories/Field.v
theories/FieldProofs.v
theories/ContentProofs.v
theories/DataProofs.v
theories/ShortProofs.v
theories/HttparseProofs.v
theories/EntryProofs.v
theories/Drive.v
theories/DriveProofs.v
theories/ReaderProofs.v
theories/Toy.v
theories/ReachProofs.v
theories/PropsReader.v
theories/HeaderSpec.v
theories/HeaderProofs.v
theories/Inplace.v
theories/PropsHeader.v
theories/Rand.v
theories/Fs.v
theories/Save.v
theories/SaveProofs.v
theories/PhaseProofs.v
theories/SaveFacts.v
theories/TextProofs.v
theories/PropsSave.v
theories/EntriesProofs.v
theories/CompleteProofs.v
theories/PropsEntries.v
theories/WireSpec.v
theories/Client.v
theories/ClientProofs.v
theories/WireProofs.v
theories/PropsClient.v
theories/Lazy.v
theories/LazyProofs.v
theories/PropsLazy.v
theories/Mock.v
theories/PropsMock.v
theories/Savedir.v
theories/PropsSavedir.v
theories/Iron.v
theories/IronProofs.v
theories/PropsIron.v
theories/Requests.v
theories/PropsRequests.v
theories/Readers.v
theories/PropsReaders.v
theories/PropsUpload.v
theories/InterruptProofs.v
theories/PropsResume.v
theories/PropsForeach.v
theories/Results.v
theories/PropsResults.v
theories/PropsAny.v
theories/PropsShort.v
theories/Harness.v
theories/PropsHarness.v
theories/TruncProofs.v
theories/PropsTrunc.v
theories/Servers.v
theories/PropsServers.v
theories/PropsKinds.v
theories/PropsBounds.v
theories/Examples.v
theories/PropsExamples.v
theories/PropsAnyway.v
theories/Buffer.v
theories/PropsBuffer.v
theories/Tests.v
theories/PropsTests.v
theories/Lazy64.v
theories/PropsLazy64.v
theories/Builders.v
theories/PropsBuilders.v
theories/Messages.v
theories/PropsMessages.v
theories/PropsLazyErrors.v
theories/PropsMinBuf.v
theories/PropsMalformed.v
theories/PropsSharp.v
theories/PropsStdout.v
theories/PropsBlame.v
theories/PropsSkip.v
theories/PropsSaveSharp.v
theories/BufferSave.v
theories/PropsBufferSave.v
theories/PropsOver.v
theories/PropsAgain.v
theories/PropsKindsAny.v
theories/Together.v
theories/TogetherProofs.v
theories/PropsTogether.v
theories/Lives.v
theories/LivesProofs.v
theories/PropsLives.v
theories/PropsCrowd.v
theories/PropsHeld.v
theories/Visits.v
theories/PropsVisits.v
theories/PropsServed.v
theories/Mixed.v
theories/PropsMixed.v
theories/BasesProofs.v
theories/PropsBases.v
