rocq/.nra.cache
